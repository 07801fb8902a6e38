(** What follows for obarrays; property lists; gensym. *)
From Coq Require Import ZArith List Bool Lia Arith.
From Verif Require Import Numbers_Model Numbers_Proofs Values_Model Symbols_Model Symbols_Spec Symbols_Proofs.
Import ListNotations.
Open Scope Z_scope.

(** ** Sets of symbols *)

Lemma find_app' : forall A (f : A -> bool) l1 l2,
  find f (l1 ++ l2) = match find f l1 with Some x => Some x | None => find f l2 end.
Proof. induction l1 as [|x l IH]; intros; cbn; [reflexivity|]. destruct (f x); auto. Qed.

Lemma wsym_add_old : forall w x s, (s < length (wsyms w))%nat -> wsym (add_sym w x) s = wsym w s.
Proof.
  intros w x s H. unfold wsym, add_sym. cbn [wsyms]. now apply app_nth1.
Qed.

Lemma interned_add_old : forall w x o t s, (s < length (wsyms w))%nat ->
  interned (add_sym w x) o t s = interned w o t s.
Proof.
  intros w x o t s H. unfold interned, wtext, wstr. rewrite wsym_add_old by auto.
  unfold add_sym at 1 2. cbn [wsyms wstrs]. rewrite app_length. cbn [length].
  assert (A : (s <? length (wsyms w) + 1)%nat = true) by (apply Nat.ltb_lt; lia).
  assert (B : (s <? length (wsyms w))%nat = true) by (apply Nat.ltb_lt; lia).
  rewrite A, B. reflexivity.
Qed.

Lemma wfind_add : forall w x o t,
  wfind (add_sym w x) o t =
  match wfind w o t with
  | Some s => Some s
  | None => if interned (add_sym w x) o t (length (wsyms w)) then Some (length (wsyms w)) else None
  end.
Proof.
  intros w x o t. unfold wfind at 1. unfold add_sym at 2. cbn [wsyms]. rewrite app_length.
  cbn [length]. rewrite seq_app, find_app'. cbn [plus seq find].
  rewrite (find_ext_in _ _ (interned w o t)) by
    (intros s Hs; apply in_seq in Hs; apply interned_add_old; lia).
  fold (wfind w o t). reflexivity.
Qed.

Lemma interned_new : forall w n o o' t,
  interned (add_sym w (MkW n (Some o) false)) o' t (length (wsyms w)) = true <->
  o' = o /\ t = text (wstr w n).
Proof.
  intros w n o o' t. unfold interned, wtext, wstr, wsym, add_sym. cbn [wsyms wstrs].
  rewrite nth_app, Nat.eqb_refl, app_length. cbn [wname wholder length].
  rewrite !andb_true_iff, Nat.ltb_lt, Nat.eqb_eq.
  destruct (list_eq_dec Z.eq_dec (text (nth n (wstrs w) [])) t); split; intuition (try congruence; try lia).
Qed.

Lemma wfind_wintern_same : forall w n o,
  wfind (snd (wintern w n o)) o (text (wstr w n)) = Some (fst (wintern w n o)).
Proof.
  intros w n o. unfold wintern. destruct (wfind w o (text (wstr w n))) as [s|] eqn:F.
  - exact F.
  - cbn [fst snd]. rewrite wfind_add, F.
    assert (E : interned (add_sym w (MkW n (Some o) false)) o (text (wstr w n)) (length (wsyms w)) = true)
      by (apply interned_new; auto).
    now rewrite E.
Qed.

Lemma wfind_wintern_other : forall w n o o' t,
  ~ (o' = o /\ t = text (wstr w n)) -> wfind (snd (wintern w n o)) o' t = wfind w o' t.
Proof.
  intros w n o o' t H. unfold wintern. destruct (wfind w o (text (wstr w n))) as [s|] eqn:F.
  - reflexivity.
  - cbn [fst snd]. rewrite wfind_add. destruct (wfind w o' t); [reflexivity|].
    destruct (interned (add_sym w (MkW n (Some o) false)) o' t (length (wsyms w))) eqn:E; [|reflexivity].
    apply interned_new in E. contradiction.
Qed.

Lemma wintern_strs : forall w n o, wstrs (snd (wintern w n o)) = wstrs w.
Proof. intros. unfold wintern. destruct (wfind w o (text (wstr w n))); reflexivity. Qed.
Lemma wintern_cur : forall w n o, wcur (snd (wintern w n o)) = wcur w.
Proof. intros. unfold wintern. destruct (wfind w o (text (wstr w n))); reflexivity. Qed.
Lemma wintern_sizes : forall w n o, wsizes (snd (wintern w n o)) = wsizes w.
Proof. intros. unfold wintern. destruct (wfind w o (text (wstr w n))); reflexivity. Qed.

Lemma wfind_text : forall w o t s, wfind w o t = Some s -> wtext w s = t /\ (s < length (wsyms w))%nat /\
  wholder (wsym w s) = Some o.
Proof.
  intros w o t s H. unfold wfind in H. apply find_some in H. destruct H as [Hs H].
  apply in_seq in Hs. unfold interned in H. rewrite !andb_true_iff in H. destruct H as [[_ H1] H2].
  destruct (list_eq_dec Z.eq_dec (wtext w s) t); [|discriminate].
  destruct (wholder (wsym w s)) as [o'|]; [|discriminate]. apply Nat.eqb_eq in H2. subst.
  repeat split; auto. lia.
Qed.

(** ** intern *)

Lemma intern_found : forall st w n ob, reached st w -> ok_str w n -> has_room w ob ->
  exists s st', intern st n ob = (Ret (VSym s), st') /\
    find_symbol st' n ob = Ret (VSym s) /\
    intern st' n ob = (Ret (VSym s), st') /\
    text (bytes st' (sname (get_sym st' s))) = text (bytes st n) /\
    snd (wintern w n (wwhich w ob)) = snd (step w (Intern n ob)) /\
    s = fst (wintern w n (wwhich w ob)) /\
    reached st' (snd (wintern w n (wwhich w ob))).
Proof.
  intros st w n ob HR Hn Hr.
  assert (HC : careful w (Intern n ob)) by (split; auto).
  pose proof (reached_step st w (Intern n ob) HR HC) as HR'.
  destruct (reached_inv st w HR) as [M I].
  destruct (agrees st w M (Intern n ob) I HC) as [E _].
  destruct (reached_inv _ _ HR') as [M' I'].
  cbn [exec step] in E, HR', I'.
  destruct (intern st n ob) as [r st'] eqn:EI. cbn [fst snd] in *.
  exists (fst (wintern w n (wwhich w ob))), st'.
  assert (SN : snd (wintern w n (wwhich w ob)) =
               snd (let (s, w') := wintern w n (wwhich w ob) in (Ret (VSym s), w')))
    by (destruct (wintern w n (wwhich w ob)); reflexivity).
  assert (SF : fst (let (s, w') := wintern w n (wwhich w ob) in (Ret (VSym s), w')) =
               Ret (VSym (fst (wintern w n (wwhich w ob)))))
    by (destruct (wintern w n (wwhich w ob)); reflexivity).
  rewrite SF in E. subst r. rewrite <- SN in *.
  assert (FS : find_symbol st' n ob = Ret (VSym (fst (wintern w n (wwhich w ob))))).
  { rewrite (find_symbol_spec _ _ _ I'). rewrite <- (which_eq _ _ _ I'), <- (wstr_eq _ _ _ I').
    unfold wstr. rewrite wintern_strs. fold (wstr w n).
    assert (WW : wwhich (snd (wintern w n (wwhich w ob))) ob = wwhich w ob)
      by (destruct ob; cbn; [reflexivity|apply wintern_cur]).
    rewrite WW, wfind_wintern_same. reflexivity. }
  split; [reflexivity|]. split; [exact FS|].
  split; [unfold intern; rewrite FS; reflexivity|].
  split.
  { destruct (wfind_text _ _ _ _ (wfind_wintern_same w n (wwhich w ob))) as (T & L & _).
    rewrite (i_len _ _ _ I') in L. rewrite (wtext_eq _ _ _ I' _ L) in T.
    rewrite <- (wstr_eq _ _ _ I). exact T. }
  cbn [step]. auto.
Qed.

Lemma intern_keeps : forall st w n ob s st' n' ob', reached st w -> ok_str w n -> has_room w ob ->
  intern st n ob = (Ret (VSym s), st') ->
  find_symbol st' n' ob' =
  if Nat.eq_dec (which st ob') (which st ob)
  then if list_eq_dec Z.eq_dec (text (bytes st n')) (text (bytes st n))
       then Ret (VSym s) else find_symbol st n' ob'
  else find_symbol st n' ob'.
Proof.
  intros st w n ob s st' n' ob' HR Hn Hr HI.
  destruct (intern_found st w n ob HR Hn Hr) as (s0 & st0 & E & F & _ & _ & _ & Es & HR').
  rewrite HI in E. injection E as <- <-.
  destruct (reached_inv st w HR) as [M I]. destruct (reached_inv _ _ HR') as [M' I'].
  rewrite (find_symbol_spec _ _ _ I'), (find_symbol_spec _ _ _ I).
  rewrite <- (which_eq _ _ _ I'), <- !(which_eq _ _ _ I), <- (wstr_eq _ _ _ I').
  unfold wstr. rewrite wintern_strs. fold (wstr w n'). rewrite <- !(wstr_eq _ _ _ I).
  assert (WW : wwhich (snd (wintern w n (wwhich w ob))) ob' = wwhich w ob')
    by (destruct ob'; cbn; [reflexivity|apply wintern_cur]).
  rewrite WW.
  destruct (Nat.eq_dec (wwhich w ob') (wwhich w ob)) as [E1|N1].
  - destruct (list_eq_dec Z.eq_dec (text (wstr w n')) (text (wstr w n))) as [E2|N2].
    + rewrite E1, E2, wfind_wintern_same, Es. reflexivity.
    + rewrite wfind_wintern_other by tauto. reflexivity.
  - rewrite wfind_wintern_other by tauto. reflexivity.
Qed.

Lemma intern_distinct : forall st w n1 n2 ob s1 s2 st1 st2, reached st w ->
  ok_str w n1 -> ok_str w n2 -> has_room w ob ->
  intern st n1 ob = (Ret (VSym s1), st1) -> intern st1 n2 ob = (Ret (VSym s2), st2) ->
  (s1 = s2 <-> text (bytes st n1) = text (bytes st n2)).
Proof.
  intros st w n1 n2 ob s1 s2 st1 st2 HR H1 H2 Hr E1 E2.
  destruct (intern_found st w n1 ob HR H1 Hr) as (s & st' & E & F & _ & T & _ & Es & HR').
  rewrite E1 in E. injection E as <- <-.
  set (w1 := snd (wintern w n1 (wwhich w ob))) in *.
  assert (H2' : ok_str w1 n2) by (unfold ok_str, w1; rewrite wintern_strs; exact H2).
  assert (WW : wwhich w1 ob = wwhich w ob) by (destruct ob; cbn; [reflexivity|apply wintern_cur]).
  assert (Hr' : has_room w1 ob).
  { unfold has_room. rewrite WW. unfold w1. rewrite wintern_sizes. exact Hr. }
  destruct (intern_found st1 w1 n2 ob HR' H2' Hr') as (s' & st'' & E & F2 & _ & T2 & _ & Es2 & HR'').
  rewrite E2 in E. injection E as <- <-.
  destruct (reached_inv st w HR) as [M I]. destruct (reached_inv _ _ HR') as [M' I'].
  destruct (reached_inv _ _ HR'') as [M'' I''].
  pose proof (intern_keeps st1 w1 n2 ob s2 st2 n1 ob HR' H2' Hr' E2) as K.
  assert (B : forall n, bytes st1 n = bytes st n).
  { intros n. rewrite <- (wstr_eq _ _ _ I'), <- (wstr_eq _ _ _ I). unfold wstr, w1. now rewrite wintern_strs. }
  rewrite !B in K. destruct (Nat.eq_dec (which st1 ob) (which st1 ob)); [|congruence].
  split.
  - intros <-.
    destruct (list_eq_dec Z.eq_dec (text (bytes st n1)) (text (bytes st n2))); auto.
    rewrite F in K. rewrite B in T2.
    rewrite (find_symbol_spec _ _ _ I'') in K. unfold answer in K.
    destruct (wfind (snd (wintern w1 n2 (wwhich w1 ob))) (which st2 ob) (text (bytes st2 n1))) eqn:Q; [|discriminate].
    injection K as ->. apply wfind_text in Q. destruct Q as (Q & L & _).
    rewrite (i_len _ _ _ I'') in L. rewrite (wtext_eq _ _ _ I'' _ L) in Q. unfold nm in Q.
    rewrite Q in T2. rewrite <- T2. rewrite <- (wstr_eq _ _ _ I''). unfold wstr. rewrite wintern_strs.
    fold (wstr w1 n1). rewrite (wstr_eq _ _ _ I'). now rewrite B.
  - intros ET. destruct (list_eq_dec Z.eq_dec (text (bytes st n1)) (text (bytes st n2))); [|congruence].
    (* the second intern finds the first symbol *)
    unfold intern in E2.
    assert (FF : find_symbol st1 n2 ob = Ret (VSym s1)).
    { rewrite (find_symbol_spec _ _ _ I') in F |- *. rewrite !B in *. rewrite <- ET. exact F. }
    rewrite FF in E2. congruence.
Qed.

(** ** unintern *)

Lemma interned_one : forall st w M, inv st w M -> forall o t s s',
  interned w o t s = true -> interned w o t s' = true -> s = s'.
Proof.
  intros st w M I o t s s' H H'. unfold interned in *. rewrite !andb_true_iff, !Nat.ltb_lt in *.
  destruct H as [[L T] Hh]. destruct H' as [[L' T'] Hh'].
  destruct (list_eq_dec Z.eq_dec (wtext w s) t) as [E|]; [|discriminate].
  destruct (list_eq_dec Z.eq_dec (wtext w s') t) as [E'|]; [|discriminate].
  destruct (wholder (wsym w s)) as [a|] eqn:EH; [|discriminate]. apply Nat.eqb_eq in Hh. subst a.
  destruct (wholder (wsym w s')) as [a|] eqn:EH'; [|discriminate]. apply Nat.eqb_eq in Hh'. subst a.
  rewrite (i_len _ _ _ I) in L, L'.
  apply (i_holder _ _ _ I) in EH; auto. apply (i_holder _ _ _ I) in EH'; auto.
  destruct EH as [h Hin], EH' as [h' Hin'].
  rewrite (wtext_eq _ _ _ I) in E by auto. rewrite (wtext_eq _ _ _ I) in E' by auto.
  assert (h = h').
  { rewrite <- (i_hash _ _ _ I _ _ _ Hin). rewrite <- (i_hash _ _ _ I _ _ _ Hin').
    apply hashid_text. congruence. }
  subst h'. eapply (i_unique _ _ _ I); eauto. congruence.
Qed.

Lemma wfind_some_interned : forall w o t s, wfind w o t = Some s -> interned w o t s = true.
Proof. intros w o t s H. unfold wfind in H. apply find_some in H. tauto. Qed.
Lemma wfind_none_interned : forall w o t s, wfind w o t = None -> interned w o t s = false.
Proof.
  intros w o t s H. unfold wfind in H.
  destruct (Nat.lt_ge_cases s (length (wsyms w))) as [L|L].
  - eapply find_none in H; [exact H|]. apply in_seq. lia.
  - unfold interned. assert (E : (s <? length (wsyms w))%nat = false) by (apply Nat.ltb_ge; lia).
    rewrite E. reflexivity.
Qed.

Lemma wfind_eq : forall st w M, inv st w M -> forall o t s,
  wfind w o t = Some s <-> interned w o t s = true.
Proof.
  intros st w M I o t s. split; [apply wfind_some_interned|]. intros H.
  destruct (wfind w o t) as [s'|] eqn:F.
  - apply wfind_some_interned in F. f_equal. eapply interned_one; eauto.
  - apply wfind_none_interned with (s := s) in F. congruence.
Qed.

Lemma interned_release : forall w s o t x, (s < length (wsyms w))%nat ->
  interned (with_sym w s (MkW (wname (wsym w s)) None (wkey (wsym w s)))) o t x =
  if (x =? s)%nat then false else interned w o t x.
Proof.
  intros w s o t x Hs. unfold with_sym, interned, wtext, wstr. rewrite replace_upd. cbn [wsyms wstrs].
  rewrite upd_length.
  assert (W : forall y, wsym (MkWorld (wstrs w) (upd s (MkW (wname (wsym w s)) None (wkey (wsym w s))) (wsyms w)) (wsizes w) (wcur w)) y
     = if (y =? s)%nat then MkW (wname (wsym w s)) None (wkey (wsym w s)) else wsym w y).
  { intros y. unfold wsym at 1. cbn [wsyms]. rewrite nth_upd. apply Nat.ltb_lt in Hs. now rewrite Hs, andb_true_r. }
  rewrite W. destruct (Nat.eqb_spec x s); [|reflexivity]. cbn [wholder]. now rewrite andb_false_r.
Qed.

Lemma unintern_effect : forall st w s ob, reached st w -> ok_sym w s -> has_room w ob ->
  wholder (wsym w s) = None \/ wholder (wsym w s) = Some (wwhich w ob) ->
  exists st', unintern st s ob = (Ret (VSym s), st') /\
    reached st' (snd (step w (Unintern s ob))) /\
    forall n ob', find_symbol st' n ob' =
      match find_symbol st n ob' with
      | Ret (VSym x) => if Nat.eq_dec x s then Ret VNil else Ret (VSym x)
      | r => r
      end.
Proof.
  intros st w s ob HR Hs Hr HH.
  assert (HC : careful w (Unintern s ob)) by (repeat split; auto).
  pose proof (reached_step st w _ HR HC) as HR'.
  destruct (reached_inv st w HR) as [M I].
  destruct (agrees st w M _ I HC) as [E _].
  destruct (reached_inv _ _ HR') as [M' I'].
  cbn [exec] in *. destruct (unintern st s ob) as [r st']. cbn [fst snd] in *.
  exists st'. split; [cbn [step fst] in E; congruence|]. split; [exact HR'|].
  intros n ob'. rewrite (find_symbol_spec _ _ _ I'), (find_symbol_spec _ _ _ I).
  cbn [step snd] in I' |- *. set (w' := with_sym w s _) in *.
  rewrite <- (which_eq _ _ _ I'), <- (which_eq _ _ _ I), <- (wstr_eq _ _ _ I'), <- (wstr_eq _ _ _ I).
  assert (WW : wwhich w' ob' = wwhich w ob') by (destruct ob'; reflexivity).
  change (wstr w' n) with (wstr w n). rewrite WW.
  unfold ok_sym in Hs. unfold answer.
  destruct (wfind w (wwhich w ob') (text (wstr w n))) as [x|] eqn:F.
  - apply (wfind_eq _ _ _ I) in F. destruct (Nat.eq_dec x s) as [->|N].
    + destruct (wfind w' (wwhich w ob') (text (wstr w n))) as [y|] eqn:F'; [|reflexivity].
      apply (wfind_eq _ _ _ I') in F'. unfold w' in F'. rewrite interned_release in F' by auto.
      destruct (Nat.eqb_spec y s); [discriminate|]. exfalso. apply n0. exact (interned_one _ _ _ I _ _ _ _ F' F).
    + assert (F' : wfind w' (wwhich w ob') (text (wstr w n)) = Some x).
      { apply (wfind_eq _ _ _ I'). unfold w'. rewrite interned_release by auto.
        destruct (Nat.eqb_spec x s); [congruence|exact F]. }
      now rewrite F'.
  - destruct (wfind w' (wwhich w ob') (text (wstr w n))) as [y|] eqn:F'; [|reflexivity].
    apply (wfind_eq _ _ _ I') in F'. unfold w' in F'. rewrite interned_release in F' by auto.
    destruct (y =? s)%nat; [discriminate|]. apply wfind_none_interned with (s := y) in F. congruence.
Qed.

(** ** make-keyword *)

Lemma keyword_effect : forall st w s, reached st w -> ok_sym w s -> keywordp st s = false ->
  exists k st', make_keyword st s = (Ret (VSym k), st') /\ keywordp st' k = true /\
    text (bytes st' (sname (get_sym st' k))) = text (35 :: 58 :: bytes st (sname (get_sym st s))) /\
    reached st' (snd (step w (MakeKeyword s))) /\
    wholder (wsym (snd (step w (MakeKeyword s))) k) = Some keyword_ob.
Proof.
  intros st w s HR Hs HK.
  assert (HC : careful w (MakeKeyword s)) by exact Hs.
  pose proof (reached_step st w _ HR HC) as HR'.
  destruct (reached_inv st w HR) as [M I].
  destruct (agrees st w M _ I HC) as [E _].
  destruct (reached_inv _ _ HR') as [M' I'].
  cbn [exec] in *. destruct (make_keyword st s) as [r st']. cbn [fst snd] in *.
  unfold ok_sym in Hs. rewrite (i_len _ _ _ I) in Hs.
  cbn [step] in *. rewrite (i_key _ _ _ I s Hs) in *. unfold keywordp in HK. rewrite HK in *.
  rewrite (i_name _ _ _ I s Hs), (wstr_eq _ _ _ I) in *.
  set (b := 35 :: 58 :: bytes st (sname (get_sym st s))) in *.
  set (w1 := add_str w b) in *.
  pose proof (inv_make_string st w M b I) as I1. fold w1 in I1.
  pose proof (wintern_sym _ _ _ (length (wstrs w)) keyword_ob I1) as HL.
  pose proof (wfind_wintern_same w1 (length (wstrs w)) keyword_ob) as WF.
  pose proof (wintern_strs w1 (length (wstrs w)) keyword_ob) as WS.
  destruct (wintern w1 (length (wstrs w)) keyword_ob) as [k w2]. cbn [fst snd] in *.
  assert (BS : wstr w1 (length (wstrs w)) = b).
  { unfold wstr, w1, add_str. cbn [wstrs]. rewrite nth_app, Nat.eqb_refl. reflexivity. }
  rewrite BS in WF. apply wfind_text in WF. destruct WF as (T & _ & TH).
  set (w3 := with_sym w2 k _) in *.
  assert (W3 : wsym w3 k = MkW (wname (wsym w2 k)) (wholder (wsym w2 k)) true).
  { unfold w3, with_sym, wsym at 1. rewrite replace_upd. cbn [wsyms]. now apply nth_upd_eq. }
  assert (L3 : (k < length (syms st'))%nat).
  { rewrite <- (i_len _ _ _ I'). unfold w3, with_sym. rewrite replace_upd. cbn [wsyms].
    now rewrite upd_length. }
  exists k, st'. split; [congruence|]. split.
  { unfold keywordp. rewrite <- (i_key _ _ _ I' k L3), W3. reflexivity. }
  split.
  { pose proof (wtext_eq _ _ _ I' k L3) as Q. unfold wtext in Q. rewrite W3 in Q. cbn [wname] in Q.
    change (wstr w3 (wname (wsym w2 k))) with (wstr w2 (wname (wsym w2 k))) in Q.
    fold (wtext w2 k) in Q. fold (nm st' k). rewrite <- Q. exact T. }
  split; [exact HR'|]. rewrite W3. exact TH.
Qed.

Lemma interned_key : forall w k o t x, (k < length (wsyms w))%nat ->
  interned (with_sym w k (MkW (wname (wsym w k)) (wholder (wsym w k)) true)) o t x = interned w o t x.
Proof.
  intros w k o t x Hk. unfold with_sym, interned, wtext, wstr. rewrite replace_upd. cbn [wsyms wstrs].
  rewrite upd_length.
  assert (W : forall y, wsym (MkWorld (wstrs w) (upd k (MkW (wname (wsym w k)) (wholder (wsym w k)) true) (wsyms w)) (wsizes w) (wcur w)) y
     = if (y =? k)%nat then MkW (wname (wsym w k)) (wholder (wsym w k)) true else wsym w y).
  { intros y. unfold wsym at 1. cbn [wsyms]. rewrite nth_upd. apply Nat.ltb_lt in Hk. now rewrite Hk, andb_true_r. }
  rewrite W. destruct (Nat.eqb_spec x k) as [->|]; reflexivity.
Qed.

(** Two keywords of a world are the same when their names are. *)
Lemma holder_unique : forall st w, reached st w -> forall o s s',
  ok_sym w s -> ok_sym w s' -> wholder (wsym w s) = Some o -> wholder (wsym w s') = Some o ->
  (s = s' <-> wtext w s = wtext w s').
Proof.
  intros st w HR o s s' Hs Hs' H H'. split; [congruence|]. intros ET.
  destruct (reached_inv st w HR) as [M I].
  apply (interned_one _ _ _ I o (wtext w s)).
  - unfold interned. unfold ok_sym in *. apply Nat.ltb_lt in Hs. rewrite Hs, H, Nat.eqb_refl.
    destruct (list_eq_dec Z.eq_dec (wtext w s) (wtext w s)); [reflexivity|congruence].
  - unfold interned. unfold ok_sym in *. apply Nat.ltb_lt in Hs'. rewrite Hs', H', Nat.eqb_refl.
    destruct (list_eq_dec Z.eq_dec (wtext w s') (wtext w s)); [reflexivity|congruence].
Qed.

Lemma step_keyword_keeps : forall st w c x, reached st w -> ok_sym w x ->
  (exists s, c = MakeKeyword s) ->
  ok_sym (snd (step w c)) x /\ wholder (wsym (snd (step w c)) x) = wholder (wsym w x) /\
  wtext (snd (step w c)) x = wtext w x /\
  (forall y, ok_sym w y -> wkey (wsym w y) = true -> wkey (wsym (snd (step w c)) y) = true).
Proof.
  intros st w c x HR Hx [s ->]. destruct (reached_inv st w HR) as [M I]. cbn [step].
  unfold ok_sym in *.
  destruct (wkey (wsym w s)); [cbn [snd]; auto|].
  set (b := 35 :: 58 :: wstr w (wname (wsym w s))).
  set (w1 := add_str w b).
  pose proof (inv_make_string st w M b I) as I1. fold w1 in I1.
  pose proof (wintern_sym _ _ _ (length (wstrs w)) keyword_ob I1) as HL.
  assert (OLD : forall y, (y < length (wsyms w))%nat ->
     wsym (snd (wintern w1 (length (wstrs w)) keyword_ob)) y = wsym w y).
  { intros y Hy. unfold wintern. destruct (wfind w1 keyword_ob (text (wstr w1 (length (wstrs w))))).
    - reflexivity.
    - cbn [snd]. rewrite wsym_add_old by exact Hy. reflexivity. }
  pose proof (wintern_strs w1 (length (wstrs w)) keyword_ob) as WS.
  assert (LEN : (length (wsyms w) <= length (wsyms (snd (wintern w1 (length (wstrs w)) keyword_ob))))%nat).
  { unfold wintern. destruct (wfind w1 keyword_ob (text (wstr w1 (length (wstrs w))))); cbn [snd].
    - reflexivity.
    - unfold add_sym. cbn [wsyms]. rewrite app_length. change (wsyms w1) with (wsyms w). lia. }
  destruct (wintern w1 (length (wstrs w)) keyword_ob) as [k w2]. cbn [fst snd] in *.
  set (w3 := with_sym w2 k (MkW (wname (wsym w2 k)) (wholder (wsym w2 k)) true)).
  assert (W3 : forall y, wsym w3 y = if (y =? k)%nat then MkW (wname (wsym w2 k)) (wholder (wsym w2 k)) true
                                     else wsym w2 y).
  { intros y. unfold w3, with_sym, wsym at 1. rewrite replace_upd. cbn [wsyms]. rewrite nth_upd.
    apply Nat.ltb_lt in HL. now rewrite HL, andb_true_r. }
  split; [unfold w3, with_sym; rewrite replace_upd; cbn [wsyms]; rewrite upd_length; lia|].
  assert (NX : wname (wsym w3 x) = wname (wsym w x) /\ wholder (wsym w3 x) = wholder (wsym w x)).
  { rewrite W3. destruct (Nat.eqb_spec x k) as [<-|]; cbn [wname wholder]; rewrite OLD by auto; auto. }
  destruct NX as [N1 N2]. split; [exact N2|]. split.
  { unfold wtext, wstr. rewrite N1. unfold w3, with_sym. cbn [wstrs]. rewrite WS.
    unfold w1, add_str. cbn [wstrs].
    rewrite app_nth1; [reflexivity|].
    rewrite (i_strs _ _ _ I), (i_name _ _ _ I) by (rewrite <- (i_len _ _ _ I); auto).
    apply (i_strok _ _ _ I). rewrite <- (i_len _ _ _ I). auto. }
  intros y Hy HK. rewrite W3. destruct (Nat.eqb_spec y k); [reflexivity|]. now rewrite OLD.
Qed.

Lemma text_keyword : forall a b, text (35 :: 58 :: a) = text (35 :: 58 :: b) <-> text a = text b.
Proof. intros a b. cbn. split; intros H; congruence. Qed.

Lemma keyword_distinct : forall st w s1 s2 k1 k2 st1 st2, reached st w -> ok_sym w s1 -> ok_sym w s2 ->
  make_keyword st s1 = (Ret (VSym k1), st1) -> make_keyword st1 s2 = (Ret (VSym k2), st2) ->
  (k1 = k2 <-> text (bytes st (sname (get_sym st s1))) = text (bytes st (sname (get_sym st s2)))).
Proof.
  intros st w s1 s2 k1 k2 st1 st2 HR H1 H2 E1 E2.
  assert (K1 : keywordp st s1 = false).
  { unfold keywordp. unfold make_keyword in E1. destruct (skey (get_sym st s1)); [discriminate|reflexivity]. }
  destruct (keyword_effect st w s1 HR H1 K1) as (k & st' & E & HK & T & HR1 & HO).
  rewrite E1 in E. injection E as <- <-.
  destruct (step_keyword_keeps st w (MakeKeyword s1) s2 HR H2 ltac:(eauto)) as (O2 & _ & T2 & _).
  set (w1 := snd (step w (MakeKeyword s1))) in *.
  assert (K2 : keywordp st1 s2 = false).
  { unfold keywordp. unfold make_keyword in E2. destruct (skey (get_sym st1 s2)); [discriminate|reflexivity]. }
  destruct (keyword_effect st1 w1 s2 HR1 O2 K2) as (k' & st'' & E & HK2 & T' & HR2 & HO2).
  rewrite E2 in E. injection E as <- <-.
  destruct (reached_inv st w HR) as [M I]. destruct (reached_inv _ _ HR1) as [M1 I1].
  destruct (reached_inv _ _ HR2) as [M2 I2].
  assert (OK1 : ok_sym w1 k1).
  { unfold ok_sym, w1. destruct (Nat.lt_ge_cases k1 (length (wsyms w1))); auto. fold w1.
    unfold wsym in HO. rewrite nth_overflow in HO by lia. discriminate. }
  destruct (step_keyword_keeps st1 w1 (MakeKeyword s2) k1 HR1 OK1 ltac:(eauto)) as (OK1' & HH1 & TT1 & _).
  set (w2 := snd (step w1 (MakeKeyword s2))) in *.
  assert (OK2 : ok_sym w2 k2).
  { unfold ok_sym. destruct (Nat.lt_ge_cases k2 (length (wsyms w2))); auto.
    unfold wsym in HO2. rewrite nth_overflow in HO2 by lia. discriminate. }
  rewrite (holder_unique st2 w2 HR2 keyword_ob k1 k2 OK1' OK2) by congruence.
  rewrite TT1.
  assert (A1 : wtext w1 k1 = text (35 :: 58 :: bytes st (sname (get_sym st s1)))).
  { unfold ok_sym in OK1. rewrite (i_len _ _ _ I1) in OK1. rewrite (wtext_eq _ _ _ I1) by auto. exact T. }
  assert (A2 : wtext w2 k2 = text (35 :: 58 :: bytes st1 (sname (get_sym st1 s2)))).
  { unfold ok_sym in OK2. rewrite (i_len _ _ _ I2) in OK2. rewrite (wtext_eq _ _ _ I2) by auto. exact T'. }
  rewrite A1, A2, text_keyword.
  assert (A3 : text (bytes st1 (sname (get_sym st1 s2))) = text (bytes st (sname (get_sym st s2)))).
  { fold (nm st1 s2) (nm st s2). unfold ok_sym in *. rewrite (i_len _ _ _ I1) in O2. rewrite (i_len _ _ _ I) in H2.
    rewrite <- (wtext_eq _ _ _ I1), <- (wtext_eq _ _ _ I) by auto. exact T2. }
  rewrite A3. reflexivity.
Qed.

(** ** apropos *)

Lemma nodup_app : forall A (l1 l2 : list A), NoDup l1 -> NoDup l2 ->
  (forall x, In x l1 -> In x l2 -> False) -> NoDup (l1 ++ l2).
Proof.
  induction l1 as [|x l1 IH]; intros l2 H1 H2 HD; cbn; auto.
  inversion H1; subst. constructor.
  - rewrite in_app_iff. intros [Q|Q]; [contradiction|]. eapply HD; [left; reflexivity|exact Q].
  - apply IH; auto. intros y Hy Hy'. eapply HD; [right; exact Hy|exact Hy'].
Qed.

Lemma apropos_chain_spec : forall st p r l n last, chain st r l -> (length l < n)%nat ->
  apropos_chain n st p r last = Some (Some (rev (filter (fun s => p (cstr (nm st s))) l) ++ last)).
Proof.
  intros st p r l n last H. revert n last. induction H as [|s l Hs Hc IH]; intros [|n] last Hn; cbn in Hn; try lia.
  - reflexivity.
  - cbn [apropos_chain]. fold (nm st s). rewrite IH by lia. cbn [filter].
    destruct (p (cstr (nm st s))); [|reflexivity]. cbn [rev]. rewrite <- app_assoc. reflexivity.
Qed.

Lemma apropos_buckets_spec : forall st w M, inv st w M -> forall p o k last,
  (k <= length (buckets st o))%nat ->
  exists l, apropos_buckets st p (skipn (length (buckets st o) - k) (buckets st o)) last = Ret (VList (l ++ last)) /\
    NoDup l /\
    forall s, In s l <-> exists h, (length (buckets st o) - k <= h)%nat /\ In s (M o h) /\ p (cstr (nm st s)) = true.
Proof.
  intros st w M I p o k. induction k as [|k IH]; intros last Hk.
  - rewrite Nat.sub_0_r, skipn_all. cbn [apropos_buckets]. exists []. split; [reflexivity|]. split; [constructor|].
    intros s. split; [intros []|]. intros (h & Hh & Hin & _).
    rewrite (i_empty _ _ _ I) in Hin by lia. contradiction.
  - set (L := length (buckets st o)) in *. set (h := (L - S k)%nat). assert (Eh : h = (L - S k)%nat) by reflexivity.
    assert (HS : skipn h (buckets st o) = nth h (buckets st o) End :: skipn (L - k) (buckets st o)).
    { replace (L - k)%nat with (S h) by lia. assert (h < length (buckets st o))%nat by (fold L; lia). clearbody h. clear IH Eh.
      revert H. clear. generalize (buckets st o) as b. induction h as [|h IHh]; intros [|x b] H; cbn in *; try lia.
      - reflexivity.
      - apply IHh. lia. }
    rewrite HS. cbn [apropos_buckets].
    rewrite (apropos_chain_spec st p _ (M o h)) by (try apply (i_chain _ _ _ I); try apply (chain_enough _ _ _ I); fold L; lia).
    destruct (IH (rev (filter (fun s => p (cstr (nm st s))) (M o h)) ++ last) ltac:(lia)) as (l & E & ND & IN).
    exists (l ++ rev (filter (fun s => p (cstr (nm st s))) (M o h))). split; [rewrite E, app_assoc; reflexivity|].
    split.
    { apply nodup_app; [exact ND|apply NoDup_rev, NoDup_filter, (i_nodup _ _ _ I)|].
      intros x Hx Hx'. apply IN in Hx. destruct Hx as (h' & Hh' & Hin & _).
      apply in_rev in Hx'. apply filter_In in Hx'. destruct Hx' as [Hx' _].
      destruct (i_one _ _ _ I _ _ _ _ _ Hin Hx') as [_ ->]. lia. }
    intros s. rewrite in_app_iff, IN, <- in_rev, filter_In. split.
    + intros [(h' & A & B & C)|[A B]]; [exists h'; split; [lia|auto]|exists h; auto].
    + intros (h' & A & B & C). destruct (Nat.eq_dec h' h) as [->|N]; [right; auto|].
      left. exists h'. split; [lia|auto].
Qed.

Lemma apropos_spec : forall st w p ob, reached st w -> ok_ob w ob ->
  exists l, apropos st p ob = Ret (VList l) /\ NoDup l /\
    forall s, In s l <->
      ok_sym w s /\ wholder (wsym w s) = Some (wwhich w ob) /\ p (wtext w s) = true.
Proof.
  intros st w p ob HR HO. destruct (reached_inv st w HR) as [M I]. unfold apropos.
  rewrite (which_eq _ _ _ I). set (o := which st ob).
  destruct (apropos_buckets_spec st w M I p o (length (buckets st o)) [] (le_n _)) as (l & E & ND & IN).
  rewrite Nat.sub_diag, skipn_O, app_nil_r in E.
  exists l. split; [exact E|]. split; [exact ND|]. intros s. rewrite IN. unfold ok_sym. split.
  - intros (h & _ & Hin & HP). destruct (i_bound _ _ _ I _ _ _ Hin) as [L _].
    rewrite (i_len _ _ _ I). split; [exact L|]. split; [apply (i_holder _ _ _ I); eauto|].
    rewrite (wtext_eq _ _ _ I) by auto. now rewrite text_cstr.
  - intros (L & HH & HP). rewrite (i_len _ _ _ I) in L. apply (i_holder _ _ _ I) in HH; auto.
    destruct HH as [h Hin]. exists h. split; [lia|]. split; [exact Hin|].
    rewrite (wtext_eq _ _ _ I) in HP by auto. now rewrite text_cstr in HP.
Qed.
