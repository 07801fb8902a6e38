(** The matcher run on the code of Regexp_Code finds the ways of
    Regexp_Spec. *)
From Coq Require Import List ZArith Bool Lia ZifyBool.
From Verif Require Import Regexp_Model Regexp_Spec Regexp_Code.
Import ListNotations.
Open Scope Z_scope.

(** * Ways *)
Definition add (e : event) (w : way) : way := (fst w, e :: snd w).

Lemma then_nil K : and_then [] K = [].
Proof. reflexivity. Qed.
Lemma map_same (l : list way) : map (fun w => (fst w, [] ++ snd w)) l = l.
Proof. induction l as [ | [j e] l IH]; [reflexivity | ]. cbn [map]. rewrite IH. reflexivity. Qed.
Lemma then_one i K : and_then [(i, [])] K = K i.
Proof. unfold and_then. cbn [flat_map fst snd]. rewrite app_nil_r. apply map_same. Qed.
Lemma then_app a b K : and_then (a ++ b) K = and_then a K ++ and_then b K.
Proof. apply flat_map_app. Qed.
Lemma then_ext l K K' : (forall j e, In (j, e) l -> K j = K' j) -> and_then l K = and_then l K'.
Proof.
  intros H. unfold and_then. induction l as [ | [j e] l IH]; [reflexivity | ]. cbn [flat_map fst].
  rewrite (H j e (or_introl eq_refl)). f_equal. apply IH. intros. eapply H. right. eauto.
Qed.
Lemma then_cons j e l K : and_then ((j, e) :: l) K = map (fun w' => (fst w', e ++ snd w')) (K j) ++ and_then l K.
Proof. reflexivity. Qed.
Lemma then_assoc a f K : and_then (and_then a f) K = and_then a (fun i => and_then (f i) K).
Proof.
  induction a as [ | [j e] a IH]; [reflexivity | ]. rewrite !then_cons, then_app, IH. f_equal.
  clear. induction (f j) as [ | [j' e'] l IH]; [reflexivity | ].
  cbn [map fst snd]. rewrite !then_cons, map_app, IH. f_equal.
  rewrite map_map. apply map_ext. intros [k e2]. cbn. now rewrite app_assoc.
Qed.
Lemma then_units l : and_then l (fun j => [(j, [])]) = l.
Proof. induction l as [ | [j e] l IH]; [reflexivity | ]. rewrite then_cons, IH. cbn. now rewrite app_nil_r. Qed.
Lemma in_then j e l K : In (j, e) (and_then l K) <-> exists j1 e1 e2, In (j1, e1) l /\ In (j, e2) (K j1) /\ e = e1 ++ e2.
Proof.
  unfold and_then. rewrite in_flat_map. split.
  - intros ([j1 e1] & H & I). apply in_map_iff in I as ([j2 e2] & E & I). cbn in E. injection E as <- <-.
    exists j1, e1, e2. auto.
  - intros (j1 & e1 & e2 & H & I & ->). exists (j1, e1). split; [exact H | ]. apply in_map_iff. exists (j, e2). auto.
Qed.

(** * Match data *)
Definition sp_of (l : list event) : list (option Z) := None :: map (fun n => last_opened n l) (seq 1 9).
Definition ep_of (l : list event) : list (option Z) := None :: map (fun n => last_closed n l) (seq 1 9).

Lemma opened_other m n v l : m <> n -> last_opened m (Opened n v :: l) = last_opened m l.
Proof. intros H. cbn [last_opened]. destruct (last_opened m l); [reflexivity | ]. destruct (Nat.eqb_spec n m); [congruence | reflexivity]. Qed.
Lemma opened_same n v l : last_opened n (Opened n v :: l) = match last_opened n l with Some i => Some i | None => Some v end.
Proof. cbn [last_opened]. now rewrite Nat.eqb_refl. Qed.
Lemma closed_other m n v l : m <> n -> last_closed m (Closed n v :: l) = last_closed m l.
Proof. intros H. cbn [last_closed]. destruct (last_closed m l); [reflexivity | ]. destruct (Nat.eqb_spec n m); [congruence | reflexivity]. Qed.
Lemma closed_same n v l : last_closed n (Closed n v :: l) = match last_closed n l with Some i => Some i | None => Some v end.
Proof. cbn [last_closed]. now rewrite Nat.eqb_refl. Qed.
Lemma opened_closed m n v l : last_opened m (Closed n v :: l) = last_opened m l.
Proof. cbn [last_opened]. now destruct (last_opened m l). Qed.
Lemma closed_opened m n v l : last_closed m (Opened n v :: l) = last_closed m l.
Proof. cbn [last_closed]. now destruct (last_closed m l). Qed.

Lemma fill_open n v l : (1 <= n <= 9)%nat -> fill (sp_of l) n v = sp_of (Opened n v :: l).
Proof.
  intros H. unfold sp_of, fill. cbn [seq map].
  destruct n as [ | [ | [ | [ | [ | [ | [ | [ | [ | [ | n]]]]]]]]]]; try lia; rewrite opened_same, ?opened_other by lia; cbn [nth set_nth firstn skipn];
    match goal with |- context[match ?x with Some _ => _ | None => _ end] => destruct x; reflexivity end.
Qed.
Lemma fill_close n v l : (1 <= n <= 9)%nat -> fill (ep_of l) n v = ep_of (Closed n v :: l).
Proof.
  intros H. unfold ep_of, fill. cbn [seq map].
  destruct n as [ | [ | [ | [ | [ | [ | [ | [ | [ | [ | n]]]]]]]]]]; try lia; rewrite closed_same, ?closed_other by lia; cbn [nth set_nth firstn skipn];
    match goal with |- context[match ?x with Some _ => _ | None => _ end] => destruct x; reflexivity end.
Qed.
Lemma ep_opened n v l : ep_of (Opened n v :: l) = ep_of l.
Proof. unfold ep_of. f_equal. apply map_ext. intros. apply closed_opened. Qed.
Lemma sp_closed n v l : sp_of (Closed n v :: l) = sp_of l.
Proof. unfold sp_of. f_equal. apply map_ext. intros. apply opened_closed. Qed.

Definition result (ws : list way) : mres :=
  match ws with [] => MNo false | (j, e) :: _ => MYes j (sp_of e) (ep_of e) false end.
Lemma result_app a b : result (a ++ b) = match a with [] => result b | _ => result a end.
Proof. destruct a; reflexivity. Qed.
Lemma result_no ws : result ws = MNo false -> ws = [].
Proof. destruct ws as [ | [j e] ws]; [reflexivity | discriminate]. Qed.

Section Runs.
  Variable m : Z -> Z.
  Variable c : list Z.
  Variable nocase : bool.
  Variable bol : option Z.
  Variable limit : Z.

  Notation run := (loop m c nocase bol limit).

  (** code at a position *)
  Definition at_ (p : nat) (x : list Z) : Prop := exists pre suf, c = pre ++ x ++ suf /\ length pre = p.
  Lemma at_app p x y : at_ p (x ++ y) -> at_ p x /\ at_ (p + length x) y.
  Proof.
    intros (pre & suf & E & L). split.
    - exists pre, (y ++ suf). split; [ | exact L]. rewrite E. now rewrite <- app_assoc.
    - exists (pre ++ x), suf. split; [ | rewrite app_length; lia]. rewrite E. now rewrite <- !app_assoc.
  Qed.
  Lemma at_op p op off : at_ p (node op off) -> op_at c p = Ok op.
  Proof. intros (pre & suf & E & <-). rewrite E. apply op_node. Qed.
  Lemma at_next p op off : at_ p (node op off) -> (0 < off)%nat -> op <> BACK -> regnext c p = Ok (Some (p + off)%nat).
  Proof.
    intros (pre & suf & E & <-) O B. rewrite E, next_node. destruct (Nat.eqb_spec off 0); [lia | ].
    destruct (Z.eqb_spec op BACK); [congruence | reflexivity].
  Qed.
  Lemma at_back p off : at_ p (node BACK off) -> (0 < off)%nat -> (off <= p)%nat -> regnext c p = Ok (Some (p - off)%nat).
  Proof.
    intros (pre & suf & E & <-) O B. rewrite E, next_node. destruct (Nat.eqb_spec off 0); [lia | ].
    change (BACK =? BACK) with true. cbn iota. destruct (Nat.leb_spec off (length pre)); [reflexivity | lia].
  Qed.
  Lemma at_any_next p op off : at_ p (node op off) -> exists n, regnext c p = n /\ (n = Ok None \/ n = Wild \/ exists q, n = Ok (Some q)).
  Proof.
    intros (pre & suf & E & <-). rewrite E, next_node. eexists. split; [reflexivity | ].
    destruct (Nat.eqb off 0); [auto | ]. destruct (op =? BACK); [destruct (Nat.leb _ _) | ]; eauto.
  Qed.
  (** an operand *)
  Lemma cstr_app cs suf : Forall (fun x => x <> 0) cs -> cstr (cs ++ 0 :: suf) = cs.
  Proof. induction 1 as [ | x cs H _ IH]; cbn [app cstr]; [reflexivity | ]. destruct (Z.eqb_spec x 0); [congruence | ]. now rewrite IH. Qed.
  Lemma at_str p op off cs : at_ p (node op off ++ cs ++ [0]) -> Forall (fun x => x <> 0) cs -> str_at c (p + 3) = cs.
  Proof.
    intros A N. apply at_app in A as [_ (pre & suf & E & L)]. rewrite node_length in L. unfold str_at. rewrite E, <- L.
    rewrite skipn_app, skipn_all, Nat.sub_diag. cbn [skipn app]. rewrite <- app_assoc. cbn [app]. now apply cstr_app.
  Qed.

  Definition Runs (q : nat) (i d : Z) (ws : list way) : Prop :=
    exists f0, forall f nest, (f0 <= f)%nat -> 0 <= nest -> nest + d < limit -> run f nest (Some q) i = result ws.

  Lemma runs_mono q i d d' ws : d <= d' -> Runs q i d ws -> Runs q i d' ws.
  Proof. intros L (f0 & H). exists f0. intros. apply H; auto. lia. Qed.

  (** one step of the loop *)
  Lemma run_eq f nest p i op next : op_at c p = Ok op -> regnext c p = Ok next ->
    run (S f) nest (Some p) i =
    let enter q j := if limit <=? nest + 1 then MNo true else run f (nest + 1) q j in
    let continue j := run f nest next j in
    if op =? BOL then
      if match bol with Some b => i =? b | None => false end then continue i else MNo false
    else if op =? EOL then if m i =? 0 then continue i else MNo false
    else if op =? EXACTLY then
      let o := str_at c (p + 3) in
      if exactly m nocase o i then continue (i + Z.of_nat (length o)) else MNo false
    else if is_one_char op then
      if one_char op (str_at c (p + 3)) (m i) then continue (i + 1) else MNo false
    else if (op =? NOTHING) || (op =? BACK) then continue i
    else if (OPEN <? op) && (op <? OPEN + NSUBEXP) then
      match enter next i with
      | MYes j sp ep e => MYes j (fill sp (Z.to_nat (op - OPEN)) i) ep e
      | r => r
      end
    else if (CLOSE <? op) && (op <? CLOSE + NSUBEXP) then
      match enter next i with
      | MYes j sp ep e => MYes j sp (fill ep (Z.to_nat (op - CLOSE)) i) e
      | r => r
      end
    else if op =? BRANCH then
      match next with
      | None => MWild
      | Some n => of_res (op_at c n) (fun nop =>
          if nop =? BRANCH then alternatives c (fun q => enter (Some q) i) f p
          else run f nest (Some (p + 3)%nat) i)
      end
    else if (op =? STAR) || (op =? PLUS) then
      match next with
      | None => MWild
      | Some n => of_res (regrepeat m c nocase f (p + 3) i) (fun no =>
          shrink m c nocase (enter next) n (if op =? STAR then 0 else 1) no i)
      end
    else if (op =? NGSTAR) || (op =? NGPLUS) then
      match next with
      | None => MWild
      | Some n => of_res (regrepeat m c nocase f (p + 3) i) (fun max =>
          let min := if op =? NGSTAR then 0%nat else 1%nat in
          grow m c nocase (enter next) n (S max - min) min i)
      end
    else if op =? WEDGE then if wedge m bol i then continue i else MNo false
    else if op =? NWEDGE then if wedge m bol i then MNo false else continue i
    else if op =? END then MYes i no_subs no_subs false
    else MNo true.
  Proof. intros E1 E2. cbn [loop]. rewrite E1. cbn [of_res]. rewrite E2. reflexivity. Qed.

  Lemma step_nothing p off i d W : at_ p (node NOTHING off) -> (0 < off)%nat -> Runs (p + off) i d W -> Runs p i d W.
  Proof.
    intros A O (f0 & H). exists (S f0). intros f nest F N L. destruct f; [lia | ].
    erewrite run_eq; [ | eapply at_op; eauto | eapply at_next; eauto; discriminate]. cbn. apply H; auto. lia.
  Qed.
  Lemma step_back p off i d W : at_ p (node BACK off) -> (0 < off)%nat -> (off <= p)%nat -> Runs (p - off) i d W -> Runs p i d W.
  Proof.
    intros A O B (f0 & H). exists (S f0). intros f nest F N L. destruct f; [lia | ].
    erewrite run_eq; [ | eapply at_op; eauto | eapply at_back; eauto]. cbn. apply H; auto. lia.
  Qed.
  Lemma step_end p i d : at_ p (node END 0) -> Runs p i d [(i, [])].
  Proof.
    intros A. exists 1%nat. intros f nest F N L. destruct f; [lia | ].
    assert (E : regnext c p = Ok None).
    { destruct A as (pre & suf & -> & <-). now rewrite next_node. }
    erewrite run_eq; [ | eapply at_op; eauto | exact E]. reflexivity.
  Qed.
  Lemma step_open p n i d W : (1 <= n <= 9)%nat -> at_ p (node (OPEN + Z.of_nat n) 3) -> 1 <= d -> Runs (p + 3) i (d - 1) W ->
    Runs p i d (map (add (Opened n i)) W).
  Proof.
    intros Hn A D (f0 & H). exists (S f0). intros f nest F N L. destruct f; [lia | ].
    erewrite run_eq; [ | eapply at_op; eauto | eapply (at_next p (OPEN + Z.of_nat n) 3 A); unfold OPEN, BACK; lia]. cbv zeta.
    replace (limit <=? nest + 1) with false by lia. rewrite (H f (nest + 1)) by lia.
    replace (OPEN + Z.of_nat n =? BOL) with false by (unfold OPEN, BOL; lia).
    replace (OPEN + Z.of_nat n =? EOL) with false by (unfold OPEN, EOL; lia).
    replace (OPEN + Z.of_nat n =? EXACTLY) with false by (unfold OPEN, EXACTLY; lia).
    replace (is_one_char (OPEN + Z.of_nat n)) with false by (unfold is_one_char, OPEN, ANY, ANYOF, ANYBUT, WORD, NDIGI; lia).
    replace ((OPEN + Z.of_nat n =? NOTHING) || (OPEN + Z.of_nat n =? BACK)) with false by (unfold OPEN, NOTHING, BACK; lia).
    replace ((OPEN <? OPEN + Z.of_nat n) && (OPEN + Z.of_nat n <? OPEN + NSUBEXP)) with true by (unfold OPEN, NSUBEXP; lia).
    replace (Z.to_nat (OPEN + Z.of_nat n - OPEN)) with n by lia.
    destruct W as [ | [j e] W]; [reflexivity | ]. cbn [result map add fst snd]. now rewrite fill_open, ep_opened.
  Qed.
  Lemma step_close p n off i d W : (1 <= n <= 9)%nat -> (0 < off)%nat -> at_ p (node (CLOSE + Z.of_nat n) off) -> 1 <= d -> Runs (p + off) i (d - 1) W ->
    Runs p i d (map (add (Closed n i)) W).
  Proof.
    intros Hn O A D (f0 & H). exists (S f0). intros f nest F N L. destruct f; [lia | ].
    erewrite run_eq; [ | eapply at_op; eauto | eapply (at_next p (CLOSE + Z.of_nat n) off A); unfold CLOSE, BACK; lia]. cbv zeta.
    replace (limit <=? nest + 1) with false by lia. rewrite (H f (nest + 1)) by lia.
    replace (CLOSE + Z.of_nat n =? BOL) with false by (unfold CLOSE, BOL; lia).
    replace (CLOSE + Z.of_nat n =? EOL) with false by (unfold CLOSE, EOL; lia).
    replace (CLOSE + Z.of_nat n =? EXACTLY) with false by (unfold CLOSE, EXACTLY; lia).
    replace (is_one_char (CLOSE + Z.of_nat n)) with false by (unfold is_one_char, CLOSE, ANY, ANYOF, ANYBUT, WORD, NDIGI; lia).
    replace ((CLOSE + Z.of_nat n =? NOTHING) || (CLOSE + Z.of_nat n =? BACK)) with false by (unfold CLOSE, NOTHING, BACK; lia).
    replace ((OPEN <? CLOSE + Z.of_nat n) && (CLOSE + Z.of_nat n <? OPEN + NSUBEXP)) with false by (unfold OPEN, CLOSE, NSUBEXP; lia).
    replace ((CLOSE <? CLOSE + Z.of_nat n) && (CLOSE + Z.of_nat n <? CLOSE + NSUBEXP)) with true by (unfold CLOSE, NSUBEXP; lia).
    replace (Z.to_nat (CLOSE + Z.of_nat n - CLOSE)) with n by lia.
    destruct W as [ | [j e] W]; [reflexivity | ]. cbn [result map add fst snd]. now rewrite fill_close, sp_closed.
  Qed.

  (** * Alternatives *)
  Definition Alts (s : nat) (i d : Z) (W : list way) : Prop :=
    exists f0, forall f g nest, (f0 <= f)%nat -> (f0 <= g)%nat -> 1 <= nest -> nest + d < limit ->
      alternatives c (fun q => run f nest (Some q) i) g s = result W.

  Lemma alternatives_ext go go' g : (forall q, go q = go' q) -> forall s, alternatives c go g s = alternatives c go' g s.
  Proof.
    intros H. induction g as [ | g IH]; intros s; [reflexivity | ]. cbn [alternatives]. rewrite H. destruct (go' _); try reflexivity.
    f_equal. destruct (regnext c s) as [[s' | ] | | | ]; cbn [of_res]; try reflexivity.
    destruct (op_at c s') as [op | | | ]; cbn [of_res]; try reflexivity. destruct (op =? BRANCH); [apply IH | reflexivity].
  Qed.
  (** how many are looked at does not depend on what they do *)
  Lemma alternatives_fuel g1 : forall s go1 e, alternatives c go1 g1 s = MNo e ->
    forall go g2 g3, (g1 <= g2)%nat -> (g1 <= g3)%nat -> alternatives c go g2 s = alternatives c go g3 s.
  Proof.
    induction g1 as [ | g1 IH]; intros s go1 e H go g2 g3 L2 L3; [discriminate | ].
    destruct g2; [lia | ]. destruct g3; [lia | ]. cbn [alternatives] in *.
    destruct (go (s + 3)%nat); try reflexivity. f_equal.
    destruct (go1 (s + 3)%nat) as [ | e' | | ]; try discriminate.
    destruct (regnext c s) as [[s' | ] | | | ]; cbn [of_res] in *; try reflexivity.
    destruct (op_at c s') as [op | | | ]; cbn [of_res] in *; try reflexivity. destruct (op =? BRANCH); [ | reflexivity].
    destruct (alternatives c go1 g1 s') as [ | e'' | | ] eqn:E; cbn [add_err] in H; try discriminate.
    eapply IH; eauto; lia.
  Qed.

  Lemma alts_more s off i d W1 W2 : at_ s (node BRANCH off) -> (0 < off)%nat -> op_at c (s + off) = Ok BRANCH ->
    Runs (s + 3) i d W1 -> Alts (s + off) i d W2 -> Alts s i d (W1 ++ W2).
  Proof.
    intros A O B (f1 & H1) (f2 & H2). exists (S (Nat.max f1 f2)). intros f g nest F G N L. destruct g; [lia | ].
    cbn [alternatives]. rewrite H1 by lia. destruct W1 as [ | [j e] W1]; [ | reflexivity]. cbn [result app].
    rewrite (at_next _ _ _ A) by (auto; discriminate). cbn [of_res]. rewrite B. cbn [of_res].
    change (BRANCH =? BRANCH) with true. cbn iota. rewrite H2 by lia. destruct W2 as [ | [j e] W2]; reflexivity.
  Qed.
  Lemma alts_last s off op i d W : at_ s (node BRANCH off) -> (0 < off)%nat -> op_at c (s + off) = Ok op -> op <> BRANCH ->
    Runs (s + 3) i d W -> Alts s i d W.
  Proof.
    intros A O B N (f1 & H1). exists (S f1). intros f g nest F G N' L. destruct g; [lia | ].
    cbn [alternatives]. rewrite H1 by lia. destruct W as [ | [j e] W]; [ | reflexivity]. cbn [result].
    rewrite (at_next _ _ _ A) by (auto; discriminate). cbn [of_res]. rewrite B. cbn [of_res].
    destruct (Z.eqb_spec op BRANCH); [congruence | reflexivity].
  Qed.
  Lemma alts_first s i d W1 W2 : W1 <> [] -> Runs (s + 3) i d W1 -> Alts s i d (W1 ++ W2).
  Proof.
    intros N (f1 & H1). exists (S f1). intros f g nest F G N' L. destruct g; [lia | ].
    cbn [alternatives]. rewrite H1 by lia. destruct W1 as [ | [j e] W1]; [congruence | reflexivity].
  Qed.
  Lemma step_alts p off i d W : at_ p (node BRANCH off) -> (0 < off)%nat -> op_at c (p + off) = Ok BRANCH -> 1 <= d ->
    Alts p i (d - 1) W -> Runs p i d W.
  Proof.
    intros A O B D (f0 & H). exists (S f0). intros f nest F N L. destruct f; [lia | ].
    erewrite run_eq; [ | eapply at_op; eauto | eapply at_next; eauto; discriminate]. cbv zeta.
    change (BRANCH =? BOL) with false. change (BRANCH =? EOL) with false. change (BRANCH =? EXACTLY) with false.
    change (is_one_char BRANCH) with false. change ((BRANCH =? NOTHING) || (BRANCH =? BACK)) with false.
    change ((OPEN <? BRANCH) && (BRANCH <? OPEN + NSUBEXP)) with false. change ((CLOSE <? BRANCH) && (BRANCH <? CLOSE + NSUBEXP)) with false.
    change (BRANCH =? BRANCH) with true. cbn iota. rewrite B. cbn [of_res]. change (BRANCH =? BRANCH) with true. cbn iota.
    rewrite (alternatives_ext _ (fun q => run f (nest + 1) (Some q) i)).
    - apply H; lia.
    - intros q. replace (limit <=? nest + 1) with false by lia. reflexivity.
  Qed.
  Lemma step_branch p off op i d W : at_ p (node BRANCH off) -> (0 < off)%nat -> op_at c (p + off) = Ok op -> op <> BRANCH ->
    Runs (p + 3) i d W -> Runs p i d W.
  Proof.
    intros A O B Nb (f0 & H). exists (S f0). intros f nest F N L. destruct f; [lia | ].
    erewrite run_eq; [ | eapply at_op; eauto | eapply at_next; eauto; discriminate]. cbv zeta.
    change (BRANCH =? BOL) with false. change (BRANCH =? EOL) with false. change (BRANCH =? EXACTLY) with false.
    change (is_one_char BRANCH) with false. change ((BRANCH =? NOTHING) || (BRANCH =? BACK)) with false.
    change ((OPEN <? BRANCH) && (BRANCH <? OPEN + NSUBEXP)) with false. change ((CLOSE <? BRANCH) && (BRANCH <? CLOSE + NSUBEXP)) with false.
    change (BRANCH =? BRANCH) with true. cbn iota. rewrite B. cbn [of_res]. destruct (Z.eqb_spec op BRANCH); [congruence | ].
    apply H; lia.
  Qed.
  (** a place that failed fails again when taken for one more alternative *)
  Lemma alts_again e i d : op_at c e = Ok BRANCH -> 0 <= d -> Runs e i d [] -> Alts e i d [].
  Proof.
    intros B D (f0 & H).
    destruct (regnext c e) as [n | | | ] eqn:E.
    2, 3, 4: exists 1%nat; intros f g nest F G N L; exfalso; specialize (H (S f0) (nest - 1) ltac:(lia) ltac:(lia) ltac:(lia));
      cbn [loop] in H; rewrite B in H; cbn [of_res] in H; rewrite E in H; discriminate.
    assert (R : forall f nest, (f0 <= S f)%nat -> 0 <= nest -> nest + d < limit -> run (S f) nest (Some e) i = MNo false) by (intros; now apply H).
    destruct n as [n | ].
    2: exists 1%nat; intros f g nest F G N L; exfalso; specialize (R f0 (nest - 1) ltac:(lia) ltac:(lia) ltac:(lia));
      erewrite run_eq in R; eauto; discriminate.
    destruct (op_at c n) as [op | | | ] eqn:O.
    2, 3, 4: exists 1%nat; intros f g nest F G N L; exfalso; specialize (R f0 (nest - 1) ltac:(lia) ltac:(lia) ltac:(lia));
      erewrite run_eq in R; eauto; cbv zeta in R; cbn in R; rewrite O in R; discriminate.
    destruct (Z.eqb_spec op BRANCH) as [-> | Nb].
    - assert (R' : forall f nest, (f0 <= S f)%nat -> 1 <= nest -> nest + d < limit -> alternatives c (fun q => run f nest (Some q) i) f e = MNo false).
      { intros f nest F N L. specialize (R f (nest - 1) F ltac:(lia) ltac:(lia)). erewrite run_eq in R; eauto. cbv zeta in R. cbn in R. rewrite O in R. cbn in R.
        rewrite <- R. apply alternatives_ext. intros q. replace (nest - 1 + 1) with nest by lia. replace (limit <=? nest) with false by lia. reflexivity. }
      exists f0. intros f g nest F G N L. cbn [result]. rewrite <- (R' f nest ltac:(lia) N L).
      eapply (alternatives_fuel f0); [apply (R' f0 nest ltac:(lia) N L) | exact G | exact F].
    - exists (S f0). intros f g nest F G N L. destruct g; [lia | ]. cbn [alternatives].
      specialize (R f nest ltac:(lia) ltac:(lia) L). erewrite run_eq in R; eauto. cbv zeta in R. cbn in R. rewrite O in R. cbn in R.
      destruct (Z.eqb_spec op BRANCH) as [X | _] in R; [destruct (Nb X) | ]. rewrite R. cbn [add_err]. rewrite E. cbn [of_res]. rewrite O. cbn [of_res].
      destruct (Z.eqb_spec op BRANCH); [congruence | reflexivity].
  Qed.
  (** the last BRANCH of a repetition that is not greedy points to what follows *)
  Lemma alts_then s off op i d d' W1 W2 : at_ s (node BRANCH off) -> (0 < off)%nat -> op_at c (s + off) = Ok op -> 0 <= d' -> d' <= d ->
    Runs (s + 3) i d W1 -> Runs (s + off) i d' [] -> W2 = [] -> Alts s i d (W1 ++ W2).
  Proof.
    intros A O B D D' H1 H2 ->. destruct (Z.eqb_spec op BRANCH) as [-> | Nb].
    - eapply alts_more; eauto. apply alts_again; auto; [lia | ]. eapply runs_mono; eauto.
    - rewrite app_nil_r. eapply alts_last; eauto.
  Qed.
End Runs.
