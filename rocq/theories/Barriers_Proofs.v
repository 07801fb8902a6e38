(* Proofs about barriers. *)
From Coq Require Import ZArith List Bool Lia ZifyBool Sorted.
Import ListNotations.
From Verif Require Import Barriers_Model Barriers_Spec.
Open Scope Z_scope.

Definition sorted := StronglySorted (fun a b => point a < point b).

Lemma sorted_app : forall a b, sorted (a ++ b) -> sorted a /\ sorted b /\ forall x y, In x a -> In y b -> point x < point y.
Proof.
  induction a as [| z a IH]; cbn; intros b H.
  - split; [constructor |]. split; [exact H |]. intros x y [].
  - inversion H as [| ? ? H1 H2]; subst. destruct (IH b H1) as (A & B & C). rewrite Forall_forall in H2.
    split; [constructor; auto; rewrite Forall_forall; intros x I; apply H2; rewrite in_app_iff; auto |]. split; auto.
    intros x y [<- | I] J; auto. apply H2. rewrite in_app_iff. auto.
Qed.
Lemma sorted_point : forall l x y, sorted l -> In x l -> In y l -> point x = point y -> x = y.
Proof.
  induction l as [| z l IH]; intros x y S I J E; [destruct I |]. inversion S as [| ? ? H1 H2]; subst. rewrite Forall_forall in H2.
  destruct I as [<- | I], J as [<- | J]; auto.
  - apply H2 in J. lia. - apply H2 in I. lia.
Qed.

Lemma near_trace : forall l, trace_barriers l = near l.
Proof. induction l as [| b r IH]; cbn; auto. destruct (closed b); auto. now rewrite IH. Qed.
Lemma near_incl : forall l x, In x (near l) -> In x l.
Proof. induction l as [| b r IH]; cbn; auto. intros x [I | I]; auto. destruct (closed b); [destruct I | auto]. Qed.
Lemma near_sorted : forall l, sorted l -> sorted (near l).
Proof.
  induction l as [| b r IH]; cbn; intros S; auto. inversion S as [| ? ? H1 H2]; subst. constructor.
  - destruct (closed b); [constructor | auto]. apply IH; auto.
  - rewrite Forall_forall in *. intros x I. apply H2. destruct (closed b); [destruct I | apply near_incl; auto].
Qed.
Lemma near_open : forall a b, (forall x, In x a -> closed x = false) -> near (a ++ b) = a ++ near b.
Proof. induction a as [| x a IH]; cbn; intros b H; auto. rewrite (H x) by auto. now rewrite IH by auto. Qed.
Lemma near_closed : forall a b x, In x a -> closed x = true -> near (a ++ b) = near a.
Proof. induction a as [| y a IH]; cbn; intros b x I C; [destruct I |]. destruct (closed y) eqn:E; auto. f_equal. destruct I as [-> | I]; [congruence | eauto]. Qed.
Lemma closed_dec : forall a, (exists x, In x a /\ closed x = true) \/ forall x, In x a -> closed x = false.
Proof.
  induction a as [| y a IH]; [right; intros x [] |]. destruct (closed y) eqn:E; [left; exists y; split; [left |]; auto |].
  destruct IH as [(x & I & C) | H]; [left; exists x; split; [right |]; auto | right]. intros x [<- | I]; auto.
Qed.

(** * common_ancestor *)

Lemma scan_none : forall p l i fd, scan p l i fd = None <-> exists d, In d l /\ point d = p.
Proof.
  induction l as [| d l IH]; cbn; intros i fd; [split; [discriminate | intros (d & [] & _)] |].
  destruct (Z.eqb_spec (point d) p) as [E | E].
  - split; auto. intros _. exists d. auto.
  - rewrite IH. split; intros (e & I & P); exists e; [auto |]. destruct I as [<- | I]; [contradiction | auto].
Qed.
Lemma scan_some : forall p l i fd fd', scan p l i fd = Some fd' -> fd' = fd \/ exists j d, nth_error l j = Some d /\ fd' = S (i + j) /\ point d < p.
Proof.
  induction l as [| d l IH]; cbn; intros i fd fd' H; [injection H as ->; auto |].
  destruct (Z.eqb_spec (point d) p) as [E | E]; [discriminate |]. destruct (IH _ _ _ H) as [X | (j & e & N & X & P)].
  - destruct (Z.ltb_spec (point d) p); [right; exists 0%nat, d; cbn; auto with arith | auto].
    split; auto. split; [lia | auto].
  - right. exists (S j), e. split; auto. split; [lia | auto].
Qed.

Lemma sorted_nth : forall l i j x y, sorted l -> (i < j)%nat -> nth_error l i = Some x -> nth_error l j = Some y -> point x < point y.
Proof.
  induction l as [| z l IH]; intros i j x y S L X Y; [destruct i; discriminate |]. inversion S as [| ? ? H1 H2]; subst. rewrite Forall_forall in H2.
  destruct j as [| j]; [lia |]. destruct i as [| i]; cbn in X, Y.
  - injection X as ->. apply H2. eapply nth_error_In; eauto.
  - apply (IH i j); auto. lia.
Qed.
Lemma nth_error_skipn : forall A (l : list A) n i, nth_error (skipn n l) i = nth_error l (n + i).
Proof. induction l as [| x l IH]; intros [| n] i; cbn; auto. now destruct i. Qed.

Definition matches (hist : list barrier) (b : barrier) : bool := existsb (fun d => point d =? point b) hist.
Lemma ca_find : forall cur hist fd, sorted cur -> sorted hist ->
  (forall j d, (j < fd)%nat -> nth_error hist j = Some d -> forall b, In b cur -> point d < point b) ->
  common_ancestor cur hist fd = find (matches hist) (near cur).
Proof.
  induction cur as [| b r IH]; intros hist fd S1 S2 H; auto. cbn [common_ancestor near find].
  inversion S1 as [| ? ? H1 H2]; subst. rewrite Forall_forall in H2.
  assert (M : matches hist b = true <-> exists d, In d (skipn fd hist) /\ point d = point b).
  { unfold matches. rewrite existsb_exists. split.
    - intros (d & I & E). exists d. split; [| lia]. apply In_nth_error in I. destruct I as [j I].
      destruct (Nat.lt_ge_cases j fd) as [L | L]; [specialize (H j d L I b (or_introl eq_refl)); lia |].
      apply (nth_error_In _ (j - fd)%nat). rewrite nth_error_skipn. now replace (fd + (j - fd))%nat with j by lia.
    - intros (d & I & E). exists d. split; [| lia]. apply In_nth_error in I. destruct I as [j I]. rewrite nth_error_skipn in I. eapply nth_error_In; eauto. }
  destruct (scan (point b) (skipn fd hist) fd fd) as [fd' |] eqn:E.
  - destruct (matches hist b) eqn:X; [destruct M as [M _]; specialize (M eq_refl); apply (scan_none _ _ fd fd) in M; congruence |].
    destruct (closed b); auto. apply IH; auto. intros j d L N x I.
    destruct (scan_some _ _ _ _ _ E) as [-> | (i & e & NE & -> & P)]; [apply (H j d L N); right; auto |].
    rewrite nth_error_skipn in NE. specialize (H2 x I). enough (point d < point b) by lia.
    destruct (Nat.eq_dec j (fd + i)) as [-> | ND]; [congruence |]. pose proof (sorted_nth hist j (fd + i) d e S2 ltac:(lia) N NE). lia.
  - apply scan_none in E. apply M in E. now rewrite E.
Qed.

(** * Routes *)

Definition own (l1 l2 : list barrier) : Prop :=
  forall x1 b1 r1 x2 b2 r2, l1 = x1 ++ b1 :: r1 -> l2 = x2 ++ b2 :: r2 -> bid b1 = bid b2 -> b1 :: r1 = b2 :: r2.
Lemma own_sym : forall a b, own a b -> own b a.
Proof. intros a b O x1 b1 r1 x2 b2 r2 E1 E2 E. symmetry. eapply O; eauto. Qed.
Lemma own_tl : forall x a b, own (x :: a) b -> own a b.
Proof. intros x a b O x1 b1 r1 x2 b2 r2 E1 E2 E. apply (O (x :: x1) b1 r1 x2 b2 r2); auto. now rewrite E1. Qed.
Lemma own_in : forall l1 l2 x y, own l1 l2 -> In x l1 -> In y l2 -> bid x = bid y -> x = y.
Proof.
  intros l1 l2 x y O I J E. apply in_split in I. destruct I as (a & b & I). apply in_split in J. destruct J as (c & d & J).
  specialize (O _ _ _ _ _ _ I J E). congruence.
Qed.

Lemma bid_dec : forall x l, {exists y, In y l /\ bid y = bid x} + {forall y, In y l -> bid y <> bid x}.
Proof.
  induction l as [| z l IH]; [right; intros y [] |]. destruct (Nat.eq_dec (bid z) (bid x)) as [E | E]; [left; exists z; split; [left |]; auto |].
  destruct IH as [H | H]; [left; destruct H as (y & I & B); exists y; split; [right |]; auto | right]. intros y [<- | I]; auto.
Qed.

Lemma route_exists : forall from to, own from to -> exists a b c, route from to a b c.
Proof.
  induction from as [| x l IH]; intros to O.
  - exists [], to, []. split; [auto |]. split; [now rewrite app_nil_r |]. split; [intros x [] | intros x _ []].
  - destruct (bid_dec x to) as [H | H].
    + destruct H as (y & I & B). apply in_split in I. destruct I as (b & r & E). pose proof (O [] x l b y r eq_refl E (eq_sym B)) as X. injection X as <- <-.
      exists [], b, (x :: l). split; [auto |]. split; [auto |]. split; [intros z [] |]. intros z I J.
      apply in_split in I. destruct I as (b1 & b2 & ->). apply in_split in J. destruct J as (l1 & l2 & J).
      rewrite <- app_assoc in E. cbn in E. pose proof (O l1 z l2 b1 z (b2 ++ x :: l) J E eq_refl) as X. injection X as ->.
      apply (f_equal (@length barrier)) in J. cbn in J. rewrite !app_length in J. cbn in J. rewrite app_length in J. cbn in J. lia.
    + destruct (IH to (own_tl _ _ _ O)) as (a & b & c & R1 & R2 & R3 & R4). exists (x :: a), b, c. split; [cbn; congruence |]. split; [auto |].
      split; [intros z [<- | I]; auto; intros J; apply (H x J); auto |]. intros z I [<- | J]; [| apply (R4 z I J)].
      apply (H x); auto. rewrite R2, in_app_iff. auto.
Qed.

Lemma route_unique : forall from to a b c a' b' c', route from to a b c -> route from to a' b' c' -> a = a' /\ b = b' /\ c = c'.
Proof.
  intros from to a b c a' b' c' (R1 & R2 & R3 & R4) (Q1 & Q2 & Q3 & Q4).
  assert (X : a = a' /\ c = c').
  { rewrite R1 in Q1. clear R1. revert a' Q1 Q3. induction a as [| x a IH]; intros [| y a'] Q1 Q3; auto.
    - cbn in Q1. subst c. exfalso. apply (Q3 y); [left; auto |]. rewrite R2, in_app_iff. right; left; auto.
    - cbn in Q1. subst c'. exfalso. apply (R3 x); [left; auto |]. rewrite Q2, in_app_iff. right; left; auto.
    - cbn in Q1. injection Q1 as <- Q1. destruct (IH ltac:(intros z I; apply R3; right; auto) a' Q1 ltac:(intros z I; apply Q3; right; auto)). subst. auto. }
  destruct X as [-> ->]. split; auto. split; auto. rewrite R2 in Q2. now apply app_inv_tail in Q2.
Qed.

Lemma find_none_iff : forall A (f : A -> bool) l, (forall x, In x l -> f x = false) -> find f l = None.
Proof. induction l as [| x l IH]; cbn; intros H; auto. rewrite (H x) by auto. apply IH. auto. Qed.
Lemma find_app : forall A (f : A -> bool) a b, (forall x, In x a -> f x = false) -> find f (a ++ b) = find f b.
Proof. induction a as [| x l IH]; cbn; intros b H; auto. rewrite (H x) by auto. apply IH. auto. Qed.

(* what common_ancestor finds on a route *)
Lemma ca_route : forall from to a b c, sorted from -> sorted to -> own from to -> route from to a b c ->
  (forall x d, In x (near from) -> In d (near to) -> point x = point d -> bid x = bid d) ->
  common_ancestor from (trace_barriers to) 0 =
    match c with
    | [] => None
    | anc :: _ => if existsb closed (a ++ b) then None else Some anc
    end.
Proof.
  intros from to a b c S1 S2 O (R1 & R2 & R3 & R4) H. rewrite near_trace, ca_find; auto using near_sorted; [| intros j d L; lia].
  assert (NA : forall x, In x (near from) -> In x a -> matches (near to) x = false).
  { intros x N I. destruct (matches (near to) x) eqn:E; auto. unfold matches in E. apply existsb_exists in E. destruct E as (d & D & P).
    exfalso. apply (R3 x I). assert (bid x = bid d) by (apply H; auto; lia). rewrite (own_in from to x d); auto; apply near_incl; auto. }
  destruct (closed_dec a) as [(x & I & C) | CA].
  { rewrite existsb_app. assert (existsb closed a = true) as -> by (apply existsb_exists; eauto). cbn [orb].
    assert (find (matches (near to)) (near from) = None) as ->; [| destruct c; auto].
    apply find_none_iff. intros y J. apply NA; auto. rewrite R1, (near_closed _ _ x) in J by auto. apply near_incl in J. auto. }
  assert (EA : existsb closed a = false) by (destruct (existsb closed a) eqn:E; auto; apply existsb_exists in E; destruct E as (x & I & C); rewrite CA in C; auto; discriminate).
  rewrite existsb_app, EA. cbn [orb].
  destruct (closed_dec b) as [(x & I & C) | CB].
  { assert (existsb closed b = true) as -> by (apply existsb_exists; eauto).
    assert (find (matches (near to)) (near from) = None) as ->; [| destruct c; auto].
    apply find_none_iff. intros y J. destruct (matches (near to) y) eqn:E; auto. unfold matches in E. apply existsb_exists in E. destruct E as (d & D & P).
    exfalso. assert (bid y = bid d) by (apply H; auto; lia). assert (y = d) by (apply (own_in from to); auto; apply near_incl; auto). subst d.
    rewrite R2, (near_closed _ _ x) in D by auto. apply (R4 y); apply near_incl; auto. }
  assert (existsb closed b = false) as -> by (destruct (existsb closed b) eqn:E; auto; apply existsb_exists in E; destruct E as (x & I & C); rewrite CB in C; auto; discriminate).
  assert (NF : near from = a ++ near c) by (rewrite R1; apply near_open; auto). assert (NT : near to = b ++ near c) by (rewrite R2; apply near_open; auto).
  rewrite NF, find_app.
  - destruct c as [| anc c]; auto. cbn [near find]. assert (matches (near to) anc = true) as ->; auto.
    unfold matches. apply existsb_exists. exists anc. split; [| lia]. rewrite NT, in_app_iff. right. left. auto.
  - intros x I. apply NA; auto. rewrite NF, in_app_iff. auto.
Qed.

Lemma until_app : forall a p c, (forall x, In x a -> point x <> point p) -> until (point p) (a ++ p :: c) = a.
Proof.
  induction a as [| x a IH]; cbn; intros p c H.
  - now rewrite Z.eqb_refl.
  - destruct (Z.eqb_spec (point x) (point p)) as [E | E]; [destruct (H x); auto |]. now rewrite IH by auto.
Qed.
Lemma until_route : forall a p c, sorted (a ++ p :: c) -> until (point p) (a ++ p :: c) = a.
Proof. intros a p c S. apply until_app. intros x I E. apply sorted_app in S. destruct S as (_ & _ & H). specialize (H x p I (or_introl eq_refl)). lia. Qed.

(** * Reachable states *)

Definition lists (s : st) : list (list barrier) := cur s :: map chain (conts s).
Record inv (s : st) : Prop := mkInv {
  v_sorted : forall l, In l (lists s) -> sorted l;
  v_own : forall l m, In l (lists s) -> In m (lists s) -> own l m;
  v_next : forall l b, In l (lists s) -> In b l -> (bid b < next s)%nat;
  v_root : forall c, In c (conts s) -> exists r, root (chain c) = Some r /\ (valid c = true -> In r (cur s))
}.

Lemma root_in : forall l r, root l = Some r -> In r l /\ closed r = true.
Proof. induction l as [| b l IH]; cbn; intros r H; [discriminate |]. destruct (closed b) eqn:E; [injection H as ->; auto |]. destruct (IH r H); auto. Qed.
Lemma root_near : forall l r, root l = Some r -> In r (near l).
Proof. induction l as [| b l IH]; cbn; intros r H; [discriminate |]. destruct (closed b) eqn:E; [injection H as ->; auto | right; auto]. Qed.

Lemma inv_init : inv init.
Proof.
  constructor; cbn.
  - intros l [<- | []]. constructor.
  - intros l m [<- | []] _ x1 b1 r1 x2 b2 r2 E. destruct x1; discriminate.
  - intros l b [<- | []] [].
  - intros c [].
Qed.

Lemma own_suffix : forall x y b, own (x ++ y) b -> own y b.
Proof. intros x y b O x1 b1 r1 x2 b2 r2 E1 E2 E. apply (O (x ++ x1) b1 r1 x2 b2 r2); auto. now rewrite E1, app_assoc. Qed.

Lemma chain_in : forall s c, In c (conts s) -> In (chain c) (lists s).
Proof. intros s c I. right. apply in_map. auto. Qed.

Lemma invalidate_chain : forall b c, chain (invalidate b c) = chain c.
Proof. intros b c. unfold invalidate. destruct (root (chain c)); auto. destruct (_ =? _); auto. Qed.

Lemma live_true : forall s c, inv s -> In c (conts s) -> valid c = true -> live s c = true.
Proof.
  intros s c V I C. destruct (v_root _ V c I) as (r & R & H). unfold live. rewrite R. apply existsb_exists. exists r. split; auto. apply Nat.eqb_refl.
Qed.

(* the effect of invoking a continuation *)
Lemma jump_route : forall s k c, inv s -> In c (conts s) -> valid c = true ->
  (forall b d, In b (near (cur s)) -> In d (near (chain c)) -> point b = point d -> bid b = bid d) ->
  exists a b m anc, route (cur s) (chain c) a b (anc :: m) /\ existsb closed b = false /\
  invoke s k c =
    if existsb closed a then mkSt (cur s) (conts s) (next s) (ORefused k :: trace s) (broken s)
    else mkSt (chain c) (conts s) (next s) (rev (map OIn (filter fin (rev b))) ++ OJump k :: rev (map OOut (filter fout a)) ++ trace s) (broken s).
Proof.
  intros s k c V I C H. unfold invoke. rewrite C, (live_true s c V I C).
  assert (S1 : sorted (cur s)) by (apply (v_sorted _ V); left; auto). assert (S2 : sorted (chain c)) by (apply (v_sorted _ V), chain_in; auto).
  assert (O : own (cur s) (chain c)) by (apply (v_own _ V); [left; auto | apply chain_in; auto]).
  destruct (route_exists _ _ O) as (a & b & m & R). destruct (v_root _ V c I) as (r & RR & RC). specialize (RC C).
  pose proof R as (R1 & R2 & R3 & R4). destruct (root_in _ _ RR) as [RI RX].
  assert (RB : ~ In r b) by (intros X; apply (R4 r X RC)).
  assert (EB : existsb closed b = false).
  { destruct (closed_dec b) as [(x & J & X) | CB].
    - exfalso. apply root_near in RR. rewrite R2, (near_closed _ _ x) in RR by auto. apply near_incl in RR. auto.
    - destruct (existsb closed b) eqn:E; auto. apply existsb_exists in E. destruct E as (x & J & X). rewrite CB in X; auto. }
  destruct m as [| anc m]; [rewrite R2, app_nil_r in RI; contradiction |].
  exists a, b, m, anc. split; auto. split; auto. unfold jump. rewrite (ca_route _ _ _ _ _ S1 S2 O R H). rewrite existsb_app, EB, orb_false_r.
  destruct (existsb closed a); auto.
  assert (U1 : until (point anc) (cur s) = a) by (rewrite R1; apply until_route; rewrite <- R1; auto).
  assert (U2 : until (point anc) (chain c) = b) by (rewrite R2; apply until_route; rewrite <- R2; auto).
  now rewrite U1, U2.
Qed.

Lemma inv_step : forall s e, inv s -> fits s e -> honest s e -> inv (step s e).
Proof.
  intros s e V F H. unfold step. destruct (broken s) eqn:BR; auto. destruct e.
  - set (b := mkB (next s) p cl i o).
    assert (NB : forall l x, In l (lists s) -> In x l -> bid x <> next s) by (intros l x I J X; pose proof (v_next _ V l x I J); lia).
    assert (S1 : sorted (cur s)) by (apply (v_sorted _ V); left; auto).
    assert (OB : forall l, In l (lists s) -> own (b :: cur s) l).
    { intros l I x1 b1 r1 x2 b2 r2 E1 E2 E. destruct x1 as [| y x1]; injection E1 as <- E1.
      - exfalso. apply (NB l b2 I); [rewrite E2, in_app_iff; right; left; auto | auto].
      - eapply (v_own _ V (cur s) l); eauto. left; auto. }
    constructor; cbn [cur conts next trace lists].
    + intros l [<- | I]; [| apply (v_sorted _ V); right; auto]. constructor; auto. rewrite Forall_forall. intros x I. cbn in F. cbn [point b].
      destruct (cur s) as [| y r] eqn:E; [destruct I |]. destruct I as [<- | I]; [auto |]. inversion S1 as [| ? ? H1 H2]; subst. rewrite Forall_forall in H2. specialize (H2 x I). cbn. lia.
    + intros l m [<- | I] [<- | J].
      * intros x1 b1 r1 x2 b2 r2 E1 E2 E. destruct x1 as [| y x1]; injection E1 as E0 E1; destruct x2 as [| z x2]; injection E2 as E3 E2; subst; auto.
        -- exfalso. apply (NB (cur s) b2); [left; auto | rewrite E2, in_app_iff; right; left; auto | auto].
        -- exfalso. apply (NB (cur s) b1); [left; auto | rewrite E1, in_app_iff; right; left; auto | auto].
        -- eapply (v_own _ V (cur s) (cur s)); eauto; left; auto.
      * apply OB. right; auto.
      * apply own_sym, OB. right; auto.
      * apply (v_own _ V); right; auto.
    + intros l x [<- | I] J.
      * destruct J as [<- | J]; [cbn; lia |]. pose proof (v_next _ V (cur s) x ltac:(left; auto) J). lia.
      * pose proof (v_next _ V l x ltac:(right; auto) J). lia.
    + intros c I. destruct (v_root _ V c I) as (r & R & X). exists r. split; auto. intros C. right. auto.
  - destruct (cur s) as [| b r] eqn:E; auto.
    assert (CH : map chain (if closed b then map (invalidate b) (conts s) else conts s) = map chain (conts s)).
    { destruct (closed b); auto. rewrite map_map. apply map_ext. apply invalidate_chain. }
    assert (EL : lists s = (b :: r) :: map chain (conts s)) by (unfold lists; now rewrite E).
    assert (S1 : sorted (b :: r)) by (apply (v_sorted _ V); rewrite EL; left; auto).
    assert (IL : forall l, In l (r :: map chain (conts s)) -> exists l', In l' (lists s) /\ exists z, l' = z ++ l).
    { rewrite EL. intros l [<- | I]; [exists (b :: r); split; [left; auto | exists [b]; auto] | exists l; split; [right; auto | exists []; auto]]. }
    constructor; unfold lists; cbn [cur conts next trace]; rewrite ?CH.
    + intros l I. destruct (IL l I) as (l' & I' & z & ->). apply (v_sorted _ V) in I'. apply sorted_app in I'. apply I'.
    + intros l m I J. destruct (IL l I) as (l' & I' & z & ->). destruct (IL m J) as (m' & J' & z' & ->).
      apply own_suffix with z. apply own_sym. apply own_suffix with z'. apply own_sym. apply (v_own _ V); auto.
    + intros l x I J. destruct (IL l I) as (l' & I' & z & ->). eapply (v_next _ V); eauto. rewrite in_app_iff. auto.
    + assert (K : forall c, In c (conts s) -> exists r0, root (chain c) = Some r0 /\ (valid c = true -> In r0 (b :: r))).
      { intros c I. destruct (v_root _ V c I) as (r0 & R & X). exists r0. split; auto. rewrite <- E. auto. }
      intros c I. destruct (closed b) eqn:CB.
      * apply in_map_iff in I. destruct I as (c' & <- & I). rewrite invalidate_chain. destruct (K c' I) as (r0 & R & X). exists r0. split; auto.
        unfold invalidate. rewrite R. destruct (Z.eqb_spec (point r0) (point b)) as [P | P]; [discriminate |]. intros C. destruct (X C) as [<- | Y]; [contradiction | auto].
      * destruct (K c I) as (r0 & R & X). exists r0. split; auto. intros C. destruct (X C) as [<- | Y]; auto. apply root_in in R. destruct R. congruence.
  - destruct (root (cur s)) as [r |] eqn:R.
    + assert (IL : forall l, In l (cur s :: map chain (conts s ++ [mkC (cur s) true])) -> In l (lists s)).
      { intros l [<- | I]; [left; auto |]. rewrite map_app, in_app_iff in I. destruct I as [I | [<- | []]]; [right; auto | left; auto]. }
      constructor; unfold lists; cbn [cur conts next trace].
      * intros l I. apply (v_sorted _ V); auto.
      * intros l m I J. apply (v_own _ V); auto.
      * intros l x I. apply (v_next _ V); auto.
      * intros c I. rewrite in_app_iff in I. destruct I as [I | [<- | []]]; [apply (v_root _ V); auto |]. exists r. split; auto. intros _. cbn. apply root_in in R. apply R.
    + destruct V. constructor; auto.
  - cbn in H. destruct (nth_error (conts s) k) as [c |] eqn:N; auto. assert (I : In c (conts s)) by (eapply nth_error_In; eauto).
    destruct (valid c) eqn:C.
    + destruct (jump_route s k c V I C (H eq_refl)) as (a & b & m & anc & (R1 & R2 & R3 & R4) & EB & ->). destruct (existsb closed a) eqn:EA.
      * destruct V. constructor; auto.
      * assert (IL : forall l, In l (chain c :: map chain (conts s)) -> In l (lists s)) by (intros l [<- | J]; [apply chain_in; auto | right; auto]).
        constructor; unfold lists; cbn [cur conts next trace].
        -- intros l J. apply (v_sorted _ V); auto.
        -- intros l l' J J'. apply (v_own _ V); auto.
        -- intros l x J. apply (v_next _ V); auto.
        -- intros c' J. destruct (v_root _ V c' J) as (r & RR & X). exists r. split; auto. intros C'. specialize (X C'). rewrite R1 in X. rewrite in_app_iff in X.
           rewrite R2, in_app_iff. destruct X as [X | X]; auto. exfalso. apply root_in in RR. assert (existsb closed a = true) by (apply existsb_exists; exists r; split; [auto | apply RR]). congruence.
    + unfold invoke. rewrite C. destruct V. constructor; auto.
Qed.

Lemma broken_step : forall s e, inv s -> honest s e -> broken s = false -> broken (step s e) = false.
Proof.
  intros s e V H B. unfold step. rewrite B. destruct e; auto.
  - destruct (cur s); auto.
  - destruct (root (cur s)); auto.
  - destruct (nth_error (conts s) k) as [c |] eqn:N; auto. unfold invoke. destruct (valid c) eqn:C; auto.
    rewrite (live_true s c V (nth_error_In _ _ N) C). unfold jump. destruct (common_ancestor _ _ _); auto.
Qed.

Lemma inv_run : forall es s, inv s -> broken s = false -> along (fun s e => fits s e /\ honest s e) s es -> inv (run s es) /\ broken (run s es) = false.
Proof.
  induction es as [| e es IH]; intros s V B A; auto. destruct A as [[A1 A2] A3]. cbn. apply IH; auto using inv_step, broken_step.
Qed.
