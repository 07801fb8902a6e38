(** Proofs about input handlers. *)

From Coq Require Import ZArith List Bool Lia ZifyBool Sorting.Sorted.
From Verif Require Import Inputs_Model Inputs_Spec.
Import ListNotations.
Open Scope Z_scope.

(** ** Counting *)

Lemma put_same {A} (m : fd -> A) i v : put m i v i = v.
Proof. unfold put. rewrite Nat.eqb_refl. reflexivity. Qed.
Lemma put_other {A} (m : fd -> A) i v j : j <> i -> put m i v j = m j.
Proof. unfold put. intros N. destruct (Nat.eqb_spec j i); [contradiction|reflexivity]. Qed.

Lemma filter_put_out x i v l : ~ In i l -> filter (put x i v) l = filter x l.
Proof.
  induction l as [|j l IH]; intros N; [reflexivity|]. cbn [filter].
  rewrite put_other by (intros ->; apply N; left; reflexivity).
  rewrite IH; [reflexivity|]. intros I. apply N. right. exact I.
Qed.
Lemma count_put_true x i l : NoDup l -> In i l -> x i = false ->
  length (filter (put x i true) l) = S (length (filter x l)).
Proof.
  induction 1 as [|j l N ND IH]; intros I E; [destruct I|]. cbn [filter].
  destruct (Nat.eq_dec j i) as [->|D].
  - rewrite put_same, E. rewrite filter_put_out by exact N. reflexivity.
  - rewrite put_other by exact D. destruct I as [I|I]; [contradiction|].
    destruct (x j); cbn [length]; rewrite IH by assumption; reflexivity.
Qed.
Lemma count_put_false x i l : NoDup l -> In i l -> x i = true ->
  length (filter x l) = S (length (filter (put x i false) l)).
Proof.
  induction 1 as [|j l N ND IH]; intros I E; [destruct I|]. cbn [filter].
  destruct (Nat.eq_dec j i) as [->|D].
  - rewrite put_same, E. rewrite filter_put_out by exact N. reflexivity.
  - rewrite put_other by exact D. destruct I as [I|I]; [contradiction|].
    destruct (x j); cbn [length]; rewrite (IH I E); reflexivity.
Qed.

Lemma in_seq0 i size : In i (seq 0 size) <-> (i < size)%nat.
Proof. rewrite in_seq. lia. Qed.
Lemma card_put_true size x i : (i < size)%nat -> x i = false -> card size (put x i true) = card size x + 1.
Proof.
  intros L E. unfold card, members. rewrite count_put_true; [lia|apply seq_NoDup|apply in_seq0; exact L|exact E].
Qed.
Lemma card_put_false size x i : (i < size)%nat -> x i = true -> card size (put x i false) = card size x - 1.
Proof.
  intros L E. unfold card, members.
  rewrite (count_put_false x i); [lia|apply seq_NoDup|apply in_seq0; exact L|exact E].
Qed.

(** ** The invariant *)

Fixpoint calls_ok (l : list ev) : Prop :=
  match l with
  | [] => True
  | e :: l => calls_ok l /\ match e with Call i c => current l i = Some c | _ => True end
  end.

Definition some {A} (x : option A) : bool := match x with Some _ => true | None => false end.

Lemma filter_pos (x : fdset) (j : fd) (l : list fd) : In j l -> x j = true -> (0 < length (filter x l))%nat.
Proof.
  intros H E. assert (G : In j (filter x l)) by (apply filter_In; auto).
  destruct (filter x l); [destruct G|cbn [length]; lia].
Qed.

Section Inv.
Variable size : nat.

Record inv (s : st) : Prop := mkinv {
  inv_act : forall i, actions s i = current (log s) i;
  inv_reg : forall i, input_fdset s i = some (current (log s) i);
  inv_low : forall i, pending s i = true -> (i < size)%nat;
  inv_count : pending_count s = card size (pending s);
  inv_calls : calls_ok (log s);
  inv_reglow : forall i, input_fdset s i = true -> (i < size)%nat }.

Definition quiet (e : ev) : Prop :=
  match e with Did _ | Call _ _ => False | _ => True end.

Lemma current_quiet e l i : quiet e -> current (e :: l) i = current l i.
Proof. destruct e; cbn; intros H; (contradiction || reflexivity). Qed.

Lemma inv_note e s : quiet e -> inv s -> inv (note e s).
Proof.
  intros Q [A B C D E F]. constructor; cbn [note actions input_fdset pending pending_count log].
  - intros i. rewrite current_quiet by exact Q. apply A.
  - intros i. rewrite current_quiet by exact Q. apply B.
  - exact C.
  - exact D.
  - cbn [calls_ok]. split; [exact E|]. destruct e; cbn in Q; (contradiction || exact I).
  - exact F.
Qed.
Lemma inv_idle z s : inv s -> inv (set_idle z s).
Proof. intros [A B C D E F]. constructor; assumption. Qed.

Lemma inv_op o s : fd_op size o -> inv s -> inv (do_op o s).
Proof.
  intros L [A B C D E F]. unfold do_op, note. destruct o as [i c|i|i| |]; cbn [fd_op] in L;
    constructor; cbn [actions input_fdset pending pending_count log current calls_ok]; auto.
  - intros j. destruct (Nat.eqb_spec j i) as [->|N]; [apply put_same|rewrite put_other by exact N; apply A].
  - intros j. destruct (Nat.eqb_spec j i) as [->|N]; [apply put_same|rewrite put_other by exact N; apply B].
  - intros j. destruct (Nat.eq_dec j i) as [->|N]; [auto|rewrite put_other by exact N; apply F].
  - intros j. destruct (Nat.eqb_spec j i) as [->|N]; [apply put_same|rewrite put_other by exact N; apply A].
  - intros j. destruct (Nat.eqb_spec j i) as [->|N]; [apply put_same|rewrite put_other by exact N; apply B].
  - intros j. destruct (Nat.eq_dec j i) as [->|N]; [auto|rewrite put_other by exact N; apply F].
  - destruct (pending s i); exact A.
  - destruct (pending s i); exact B.
  - intros j. destruct (pending s i) eqn:P; [apply C|]. cbn [pending].
    destruct (Nat.eq_dec j i) as [->|N]; [auto|rewrite put_other by exact N; apply C].
  - destruct (pending s i) eqn:P; [exact D|]. cbn [pending pending_count].
    rewrite card_put_true by assumption. lia.
  - destruct (pending s i); auto.
  - destruct (pending s i); exact F.
Qed.
Lemma inv_ops l : forall s, Forall (fd_op size) l -> inv s -> inv (do_ops l s).
Proof.
  induction l as [|o l IH]; intros s F I; [exact I|]. inversion F; subst.
  cbn [do_ops fold_left]. apply IH; [assumption|]. apply inv_op; assumption.
Qed.

Definition clear (i : fd) (s : st) : st :=
  if pending s i
  then mk (input_fdset s) (actions s) (put (pending s) i false) (pending_count s - 1)
         (idle_period s) (interrupted s) (log s)
  else s.
Lemma inv_clear i s : inv s -> inv (clear i s).
Proof.
  intros I. unfold clear. destruct (pending s i) eqn:P; [|exact I]. destruct I as [A B C D E F].
  constructor; cbn [actions input_fdset pending pending_count log]; auto.
  - intros j. destruct (Nat.eq_dec j i) as [->|N]; [rewrite put_same; discriminate|].
    rewrite put_other by exact N. apply C.
  - rewrite card_put_false; [lia|apply C; exact P|exact P].
Qed.
Lemma inv_call i c s : actions s i = Some c -> inv s -> inv (note (Call i c) s).
Proof.
  intros H [A B C D E F]. constructor; cbn [note actions input_fdset pending pending_count log current calls_ok]; auto.
  split; [exact E|]. rewrite <- A. exact H.
Qed.

Lemma inv_start : inv start.
Proof.
  constructor; cbn; auto; try discriminate. unfold card, members.
  induction (seq 0 size); [reflexivity|exact IHl].
Qed.

(** ** The loops *)

Variable W : world.
Hypothesis SANE : sane size W.
Variable chunk : Z.
Variable garbage : fdset.
Variable ncallbacks : nat.

Lemma handle_loop_step is inputs ready refresh s i :
  handle_loop W (i :: is) inputs ready refresh s =
  if (0 <? ready) && negb (interrupted s) then
    if inputs i then
      match actions (clear i s) i with
      | Some c =>
          handle_loop W is inputs (ready - 1) true
            (do_ops (react W (Call i c :: log s) i c) (note (Call i c) (clear i s)))
      | None => handle_loop W is inputs (ready - 1) refresh (clear i s)
      end
    else handle_loop W is inputs ready refresh s
  else (refresh, s).
Proof.
  cbn [handle_loop]. destruct ((0 <? ready) && negb (interrupted s)); [|reflexivity].
  destruct (inputs i); [|reflexivity]. unfold clear. destruct (pending s i); reflexivity.
Qed.

Lemma clear_log i s : log (clear i s) = log s.
Proof. unfold clear. destruct (pending s i); reflexivity. Qed.
Lemma clear_act i s : actions (clear i s) = actions s.
Proof. unfold clear. destruct (pending s i); reflexivity. Qed.
Lemma clear_int i s : interrupted (clear i s) = interrupted s.
Proof. unfold clear. destruct (pending s i); reflexivity. Qed.
Lemma clear_pend i s j : pending (clear i s) j = if Nat.eqb j i then false else pending s j.
Proof.
  unfold clear. destruct (pending s i) eqn:P; [reflexivity|].
  destruct (Nat.eqb_spec j i) as [->|]; [exact P|reflexivity].
Qed.

Lemma handle_loop_inv inputs : forall is ready refresh s, inv s ->
  inv (snd (handle_loop W is inputs ready refresh s)).
Proof.
  induction is as [|i is IH]; intros ready refresh s I; [exact I|]. rewrite handle_loop_step.
  destruct ((0 <? ready) && negb (interrupted s)); [|exact I].
  destruct (inputs i); [|apply IH; exact I].
  pose proof (inv_clear i s I) as IC. destruct (actions (clear i s) i) as [c|] eqn:A; [|apply IH; exact IC].
  apply IH. apply inv_ops; [apply (proj1 SANE)|]. apply inv_call; assumption.
Qed.

Lemma proc_loop_inv : forall ks ret s, inv s -> inv (snd (proc_loop W ks ret s)).
Proof.
  induction ks as [|k ks IH]; intros ret s I; [exact I|]. cbn [proc_loop].
  destruct (periodic W (log (note (Periodic k) s)) k) as [ops b] eqn:P.
  apply IH. apply inv_ops; [|apply inv_note; [exact Logic.I|exact I]].
  destruct SANE as (_ & _ & H & _). specialize (H (log (note (Periodic k) s)) k). rewrite P in H. exact H.
Qed.

Lemma handle_input_inv inputs ready s : inv s -> inv (snd (handle_input W size ncallbacks inputs ready s)).
Proof.
  intros I. unfold handle_input.
  match goal with |- context [if 0 <? ready then ?a else ?b] =>
    assert (H : inv (snd (if 0 <? ready then a else b))) end.
  { destruct (0 <? ready); [apply handle_loop_inv; apply inv_idle; exact I|].
    destruct (ready =? 0); [|exact I].
    destruct (interrupted s); [apply inv_idle; exact I|].
    destruct (on_idle W (log (note (Idle (idle_period s)) s)) (idle_period (note (Idle (idle_period s)) s))) as [ops b] eqn:P.
    apply inv_idle. apply inv_ops; [|apply inv_note; [exact Logic.I|exact I]].
    destruct SANE as (_ & H & _). specialize (H (log (note (Idle (idle_period s)) s)) (idle_period (note (Idle (idle_period s)) s))).
    rewrite P in H. exact H. }
  revert H. match goal with |- context [if 0 <? ready then ?a else ?b] =>
    destruct (if 0 <? ready then a else b) as [refresh s1] end.
  cbn [snd]. intros H. destruct (interrupted s1); [exact H|].
  pose proof (proc_loop_inv (seq 0 ncallbacks) false s1 H) as G.
  destruct (proc_loop W (seq 0 ncallbacks) false s1) as [b s2]. exact G.
Qed.

(** What waiting gives. *)
Definition found (inputs : fdset) (r : Z) (c : fdset) : Prop :=
  -1 <= r /\ (0 < r -> r = card size c /\ forall i, c i = true -> inputs i = true /\ (i < size)%nat).

Lemma wait_loop_ok inputs : forall fuel timeout ready s r c s',
  (ready = -1 \/ ready = 0) -> inv s -> wait_loop W chunk fuel inputs timeout ready s = Some (r, c, s') ->
  inv s' /\ found inputs r c /\ exists new, log s' = new ++ log s /\ called new = [].
Proof.
  induction fuel as [|k IH]; intros timeout ready s r c s' HR I E; [discriminate|]. cbn [wait_loop] in E.
  set (s1 := if (ready =? 0) && tested W (log s) then do_op Throw s else s) in *.
  assert (I1 : inv s1) by (unfold s1; destruct ((ready =? 0) && tested W (log s)); [apply inv_op; [exact Logic.I|exact I]|exact I]).
  assert (L1 : exists n, log s1 = n ++ log s /\ called n = []).
  { unfold s1. destruct ((ready =? 0) && tested W (log s)); [exists [Did Throw]|exists []]; split; reflexivity. }
  clearbody s1. destruct L1 as (n1 & L1 & C1).
  destruct ((ready =? 0) && interrupted s1) eqn:B.
  - injection E as <- <- <-. split; [exact I1|]. split.
    + split; [lia|]. intros. lia.
    + exists n1. auto.
  - destruct (kernel W (log s1) inputs (Z.min (Z.min timeout chunk) (max_sleep W (log s)))) as [r1 y] eqn:K.
    pose proof SANE as (_ & _ & _ & OT & _ & KE). destruct (KE _ _ _ _ _ K) as (R1 & R2).
    set (s2 := note (Select _) s1) in *.
    assert (I2 : inv s2) by (apply inv_note; [exact Logic.I|exact I1]).
    set (s3 := if _ : bool then do_ops _ _ else s2) in *.
    assert (I3 : inv s3 /\ exists n, log s3 = n ++ log s2 /\ called n = []).
    { unfold s3. destruct ((r1 =? 0) && _).
      - split; [apply inv_ops; [apply OT|]; apply inv_note; [exact Logic.I|exact I2]|].
        match goal with |- context [do_ops ?o ?x] => generalize o; intros os;
          assert (G : forall os z, exists n, log (do_ops os z) = n ++ log z /\ called n = []) end.
        { clear. induction os as [|o os IH]; intros z; [exists []; split; reflexivity|].
          cbn [do_ops fold_left]. destruct (IH (do_op o z)) as (n & E & C).
          exists (n ++ [Did o]). rewrite <- app_assoc. cbn [app]. split.
          - unfold do_ops in E. rewrite E. f_equal. unfold do_op, note. cbn [log]. f_equal.
            destruct o; try reflexivity. destruct (pending z i); reflexivity.
          - clear -C. induction n as [|e n IH]; [reflexivity|]. destruct e; cbn [called app] in *; auto. discriminate. }
        match goal with |- context [do_ops os ?x] => destruct (G os x) as (n & En & Cn) end.
        eexists (n ++ [_]). rewrite <- app_assoc. cbn [app]. split; [exact En|].
        clear -Cn. induction n as [|e n IH]; [reflexivity|]. destruct e; cbn [called app] in *; auto. discriminate.
      - split; [exact I2|]. exists []. split; reflexivity. }
    clearbody s3. destruct I3 as (I3 & n3 & L3 & C3).
    assert (CA : forall a b, called a = [] -> called b = [] -> called (a ++ b) = []).
    { clear. induction a as [|e a IH]; intros b A B; [exact B|]. destruct e; cbn [called app] in *; auto. discriminate. }
    assert (L13 : exists n, log s3 = n ++ log s /\ called n = []).
    { rewrite L3. unfold s2. cbn [note log]. rewrite L1. eexists (n3 ++ _ :: n1).
      rewrite <- app_assoc. cbn [app]. split; [reflexivity|]. apply CA; [exact C3|exact C1]. }
    destruct ((r1 =? 0) && (0 <? timeout - Z.min timeout chunk)) eqn:B2.
    + assert (Z0 : r1 = 0) by (clear -B2; lia).
      destruct (IH _ _ _ _ _ _ (or_intror Z0) I3 E) as (Ia & Fa & na & La & Ca).
      split; [exact Ia|]. split; [exact Fa|]. destruct L13 as (n & Ln & Cn).
      exists (na ++ n). rewrite La, Ln, app_assoc. split; [reflexivity|]. apply CA; assumption.
    + injection E as <- <- <-. split; [exact I3|]. split; [|exact L13].
      split; [exact R1|]. intros P. apply R2. lia.
Qed.

(** The scan finds all pending inputs. *)
Lemma scan_ok inputs s : forall is pre seen count out,
  seq 0 size = pre ++ is -> inv s ->
  seen = Z.of_nat (length (filter (pending s) pre)) ->
  count = Z.of_nat (length (filter (fun i => pending s i && inputs i) pre)) ->
  (0 < count -> forall j, out j = true <-> (In j pre /\ pending s j = true /\ inputs j = true)) ->
  exists c o, scan is inputs s seen count out = (c, o) /\
    c = card size (fun i => pending s i && inputs i) /\
    (0 < c -> forall j, o j = true <-> ((j < size)%nat /\ pending s j = true /\ inputs j = true)).
Proof.
  induction is as [|i is IH]; intros pre seen count out E I S C O.
  - rewrite app_nil_r in E. cbn [scan]. exists count, out. split; [reflexivity|].
    split; [rewrite C; unfold card, members; rewrite E; reflexivity|].
    intros P j. rewrite (O P j), <- E, in_seq0. reflexivity.
  - cbn [scan]. destruct (Z.ltb_spec seen (pending_count s)) as [L|L].
    + assert (NI : ~ In i pre).
      { pose proof (seq_NoDup size 0) as ND. rewrite E in ND. apply NoDup_remove_2 in ND.
        intros H. apply ND. apply in_or_app. left. exact H. }
      assert (E' : seq 0 size = (pre ++ [i]) ++ is) by (rewrite <- app_assoc; exact E).
      destruct (pending s i) eqn:P; [destruct (inputs i) eqn:Q|].
      * apply (IH (pre ++ [i])); [exact E'|exact I| | |].
        -- rewrite filter_app, app_length. cbn [filter]. rewrite P. cbn [length]. unfold fd in *. lia.
        -- rewrite filter_app, app_length. cbn [filter]. rewrite P, Q. cbn [andb length]. unfold fd in *. lia.
        -- intros _ j. destruct (Nat.eq_dec j i) as [->|N].
           ++ rewrite put_same. split; [|reflexivity]. intros _. split; [apply in_or_app; right; left; reflexivity|auto].
           ++ rewrite put_other by exact N.
              assert (X : In j (pre ++ [i]) <-> In j pre).
              { rewrite in_app_iff. cbn [In]. split; [intros [H|[H|[]]]; [exact H|congruence]|auto]. }
              rewrite X. destruct (Z.eqb_spec count 0) as [Z|Z].
              ** unfold none. split; [discriminate|]. intros (H1 & H2 & H3). exfalso.
                 pose proof (filter_pos (fun i => pending s i && inputs i) j pre H1 ltac:(cbv beta; rewrite H2, H3; reflexivity)) as H.
                 unfold fd in *. lia.
              ** apply O. lia.
      * apply (IH (pre ++ [i])); [exact E'|exact I| | |].
        -- rewrite filter_app, app_length. cbn [filter]. rewrite P. cbn [length]. unfold fd in *. lia.
        -- rewrite filter_app, app_length. cbn [filter]. rewrite P, Q. cbn [andb length]. unfold fd in *. lia.
        -- intros H j. rewrite (O H j), in_app_iff. cbn [In]. split; [tauto|].
           intros ([H1|[<-|[]]] & H2 & H3); [auto|congruence].
      * apply (IH (pre ++ [i])); [exact E'|exact I| | |].
        -- rewrite filter_app, app_length. cbn [filter]. rewrite P. cbn [length]. unfold fd in *. lia.
        -- rewrite filter_app, app_length. cbn [filter]. rewrite P. cbn [andb length]. unfold fd in *. lia.
        -- intros H j. rewrite (O H j), in_app_iff. cbn [In]. split; [tauto|].
           intros ([H1|[<-|[]]] & H2 & H3); [auto|congruence].
    + (* all pending descriptors were seen *)
      assert (NO : forall j, In j (i :: is) -> pending s j = false).
      { intros j Hj. destruct (pending s j) eqn:P; [|reflexivity]. exfalso.
        pose proof (inv_count s I) as PC. unfold card, members in PC. rewrite E, filter_app, app_length in PC.
        pose proof (filter_pos (pending s) j (i :: is) Hj P) as H. unfold fd in *. lia. }
      exists count, out. split; [reflexivity|]. split.
      * rewrite C. unfold card, members. rewrite E, filter_app, app_length.
        assert (G : filter (fun i0 => pending s i0 && inputs i0) (i :: is) = []).
        { revert NO. clear. generalize (i :: is). intros l. induction l as [|j l IHl]; intros N; [reflexivity|].
          cbn [filter]. rewrite (N j) by (left; reflexivity). cbn [andb]. apply IHl. intros k Hk. apply N. right. exact Hk. }
        unfold fd in *. rewrite G. cbn [length]. lia.
      * intros H j. rewrite (O H j), <- in_seq0, E, in_app_iff. split; [tauto|].
        intros ([H1|H1] & H2 & H3); [auto|]. rewrite (NO j H1) in H2. discriminate.
Qed.

Lemma scan_start inputs s : inv s ->
  exists c o, scan (seq 0 size) inputs s 0 0 garbage = (c, o) /\
    c = card size (fun i => pending s i && inputs i) /\
    (0 < c -> forall j, o j = true <-> ((j < size)%nat /\ pending s j = true /\ inputs j = true)).
Proof. intros I. apply (scan_ok inputs s (seq 0 size) [] 0 0 garbage); auto; lia. Qed.

Lemma members_ext x y : (forall j, (j < size)%nat -> x j = y j) -> members size x = members size y.
Proof.
  intros H. unfold members. apply filter_ext_in. intros j Hj. apply H. apply in_seq0. exact Hj.
Qed.

Lemma wait_ok inputs fuel timeout s r c s' :
  inv s -> wait_for_input W size chunk garbage fuel inputs timeout s = Some (r, c, s') ->
  inv s' /\ found inputs r c /\ exists new, log s' = new ++ log s /\ called new = [].
Proof.
  intros I. unfold wait_for_input. destruct (0 <? pending_count s) eqn:P.
  - destruct (scan_start inputs s I) as (n & o & -> & Cn & O). destruct (Z.ltb_spec 0 n) as [L|L].
    + intros E. injection E as <- <- <-. split; [exact I|]. split.
      * split; [lia|]. intros _. specialize (O L). split.
        -- rewrite Cn. unfold card. f_equal. f_equal. apply members_ext. intros j Hj.
           destruct (o j) eqn:Q.
           ++ apply O in Q. destruct Q as (_ & -> & ->). reflexivity.
           ++ destruct (pending s j && inputs j) eqn:Q2; [|reflexivity]. apply andb_prop in Q2.
              assert (o j = true) by (apply O; tauto). congruence.
        -- intros i Hi. apply O in Hi. tauto.
      * exists []. split; reflexivity.
    + apply wait_loop_ok; auto.
  - apply wait_loop_ok; auto.
Qed.

(** Pending inputs come first. *)
Lemma wait_pending inputs fuel timeout s i r c s' :
  inv s -> pending s i = true -> inputs i = true ->
  wait_for_input W size chunk garbage fuel inputs timeout s = Some (r, c, s') ->
  s' = s /\ 0 < r /\ r = card size c /\
  (forall j, c j = true <-> ((j < size)%nat /\ pending s j = true /\ inputs j = true)).
Proof.
  intros I P Q. unfold wait_for_input.
  destruct (scan_start inputs s I) as (n & o & SC & Cn & O).
  pose proof (inv_low s I i P) as Li.
  assert (N : 0 < n).
  { rewrite Cn. unfold card, members.
    pose proof (filter_pos (fun i => pending s i && inputs i) i (seq 0 size) (proj2 (in_seq0 i size) Li) ltac:(cbv beta; rewrite P, Q; reflexivity)) as H.
    unfold fd in *. lia. }
  assert (PC : 0 < pending_count s).
  { rewrite (inv_count s I). unfold card, members.
    pose proof (filter_pos (pending s) i (seq 0 size) (proj2 (in_seq0 i size) Li) P) as H.
    unfold fd in *. lia. }
  replace (0 <? pending_count s) with true by lia. rewrite SC. replace (0 <? n) with true by lia.
  intros E. injection E as <- <- <-. split; [reflexivity|]. split; [exact N|]. split; [|exact (O N)].
  rewrite Cn. unfold card. f_equal. f_equal. apply members_ext. intros j Hj. specialize (O N j).
  destruct (o j) eqn:Qj.
  - destruct (proj1 O eq_refl) as (_ & -> & ->). reflexivity.
  - destruct (pending s j && inputs j) eqn:Q2; [|reflexivity]. apply andb_prop in Q2.
    assert (false = true) by (apply O; tauto). discriminate.
Qed.

(** ** What a round does *)

Lemma ops_log : forall os s, exists new, log (do_ops os s) = new ++ log s /\
  (forall e, In e new -> exists o, In o os /\ e = Did o) /\ called new = [].
Proof.
  induction os as [|o os IH]; intros s; [exists []; split; [reflexivity|split; [intros e []|reflexivity]]|].
  cbn [do_ops fold_left]. destruct (IH (do_op o s)) as (n & E & H & C). exists (n ++ [Did o]).
  split; [|split].
  - unfold do_ops in E. rewrite E, <- app_assoc. cbn [app]. f_equal. unfold do_op, note. cbn [log]. f_equal.
    destruct o; try reflexivity. destruct (pending s i); reflexivity.
  - intros e He. apply in_app_or in He. destruct He as [He|[<-|[]]].
    + destruct (H e He) as (o' & I & ->). exists o'. split; [right; exact I|reflexivity].
    + exists o. split; [left; reflexivity|reflexivity].
  - clear -C. induction n as [|e n IH]; [reflexivity|]. destruct e; cbn [called app] in *; auto. discriminate.
Qed.

Lemma called_app a b : called (a ++ b) = called a ++ called b.
Proof. induction a as [|e a IH]; [reflexivity|]. destruct e; cbn [called app]; rewrite ?IH; reflexivity. Qed.
Lemma called_in l i : In i (called l) <-> exists c, In (Call i c) l.
Proof.
  induction l as [|e l IH]; [split; [intros []|intros (c & [])]|].
  destruct e; cbn [called In]; rewrite ?IH.
  2:{ split.
      - intros [->|(c' & H)]; [exists c; auto|exists c'; auto].
      - intros (c' & [H|H]); [left; congruence|right; exists c'; exact H]. }
  all: split; intros (c' & H); exists c'; auto; destruct H as [H|H]; [discriminate|exact H].
Qed.

Lemma current_untouched l1 l i : (forall e, In e l1 -> ~ touches i e) -> current (l1 ++ l) i = current l i.
Proof.
  induction l1 as [|e l1 IH]; intros H; [reflexivity|].
  assert (H' : forall e, In e l1 -> ~ touches i e) by (intros x Hx; apply H; right; exact Hx).
  specialize (H e (or_introl eq_refl)). unfold touches in H. rewrite <- IH by exact H'. cbn [app].
  destruct e as [o| | | | |]; try reflexivity. destruct o as [j c|j|j| |]; try reflexivity; cbn [current];
    (destruct (Nat.eqb_spec i j) as [->|]; [|reflexivity]); exfalso; apply H; [left; exists c; reflexivity|right; reflexivity].
Qed.

(** Each descriptor at most once, in order, only those that are ready. *)
Lemma handle_loop_order inputs : forall is ready refresh s,
  StronglySorted lt is ->
  exists new, log (snd (handle_loop W is inputs ready refresh s)) = new ++ log s /\
    StronglySorted gt (called new) /\
    (forall i, In i (called new) -> In i is /\ inputs i = true).
Proof.
  induction is as [|i is IH]; intros ready refresh s S.
  - exists []. split; [reflexivity|]. split; [constructor|intros i []].
  - inversion S as [|x y S' F]; subst. rewrite handle_loop_step.
    destruct ((0 <? ready) && negb (interrupted s)); [|exists []; split; [reflexivity|split; [constructor|intros j []]]].
    destruct (inputs i) eqn:Q.
    + destruct (actions (clear i s) i) as [c|] eqn:A.
      * set (s2 := do_ops (react W (Call i c :: log s) i c) (note (Call i c) (clear i s))).
        destruct (IH (ready - 1) true s2 S') as (new & E & O & M).
        destruct (ops_log (react W (Call i c :: log s) i c) (note (Call i c) (clear i s))) as (n2 & E2 & _ & C2).
        exists (new ++ n2 ++ [Call i c]). split; [|split].
        -- rewrite E. unfold s2. rewrite E2. cbn [note log]. rewrite clear_log, <- !app_assoc. reflexivity.
        -- rewrite !called_app, C2. cbn [app called]. 
           assert (G : forall j, In j (called new) -> (j > i)%nat).
           { intros j Hj. destruct (M j Hj) as [H _]. rewrite Forall_forall in F. apply F. exact H. }
           revert O G. generalize (called new). clear. intros l. induction l as [|j l IHl]; intros O G.
           ++ constructor; constructor.
           ++ inversion O as [|x y O' FO]; subst. cbn [app]. constructor.
              ** apply IHl; [exact O'|]. intros k Hk. apply G. right. exact Hk.
              ** apply Forall_app. split; [exact FO|]. constructor; [apply G; left; reflexivity|constructor].
        -- intros j Hj. rewrite !called_app, C2 in Hj. cbn [app called] in Hj. apply in_app_or in Hj.
           destruct Hj as [Hj|[<-|[]]]; [destruct (M j Hj); split; [right; assumption|assumption]|].
           split; [left; reflexivity|exact Q].
      * destruct (IH (ready - 1) refresh (clear i s) S') as (new & E & O & M).
        rewrite clear_log in E. exists new. split; [exact E|]. split; [exact O|].
        intros j Hj. destruct (M j Hj). split; [right; assumption|assumption].
    + destruct (IH ready refresh s S') as (new & E & O & M). exists new. split; [exact E|]. split; [exact O|].
      intros j Hj. destruct (M j Hj). split; [right; assumption|assumption].
Qed.

Lemma ops_calm : forall os s, ~ In Throw os -> interrupted s = false -> interrupted (do_ops os s) = false.
Proof.
  induction os as [|o os IH]; intros s N E; [exact E|]. cbn [do_ops fold_left]. apply IH.
  - intros H. apply N. right. exact H.
  - unfold do_op, note. cbn [interrupted]. destruct o; cbn [interrupted]; auto.
    + destruct (pending s i); exact E.
    + exfalso. apply N. left. reflexivity.
Qed.

(** Nothing is missed in a calm world. *)
Lemma handle_loop_complete inputs i : 
  (forall l j c, ~ In Throw (react W l j c)) ->
  forall is ready refresh s new,
  In i is -> inputs i = true ->
  ready = Z.of_nat (length (filter inputs is)) -> inv s -> interrupted s = false ->
  log (snd (handle_loop W is inputs ready refresh s)) = new ++ log s ->
  (forall e, In e new -> ~ touches i e) ->
  forall c, current (log s) i = Some c -> In (Call i c) new.
Proof.
  intros CALM. induction is as [|j is IH]; intros ready refresh s new Hi Q R I INT E U c CU; [destruct Hi|].
  rewrite handle_loop_step in E.
  assert (POS : (0 <? ready) = true).
  { apply Z.ltb_lt. rewrite R. pose proof (filter_pos inputs i (j :: is) Hi Q) as H. unfold fd in *. lia. }
  rewrite POS, INT in E. cbn [andb negb] in E. cbn [filter] in R.
  destruct (inputs j) eqn:Qj.
  - cbn [length] in R.
    destruct (actions (clear j s) j) as [c'|] eqn:A.
    + set (s1 := note (Call j c') (clear j s)) in *.
      set (os := react W (Call j c' :: log s) j c') in *.
      destruct (ops_log os s1) as (n2 & E2 & H2 & C2).
      assert (I1 : inv s1) by (apply inv_call; [exact A|apply inv_clear; exact I]).
      assert (I2 : inv (do_ops os s1)) by (apply inv_ops; [apply (proj1 SANE)|exact I1]).
      assert (INT2 : interrupted (do_ops os s1) = false).
      { apply ops_calm; [apply CALM|]. unfold s1. cbn [note interrupted]. rewrite clear_int. exact INT. }
      pose proof (handle_loop_inv inputs is (ready - 1) true _ I2) as _.
      assert (LG : exists n3, log (snd (handle_loop W is inputs (ready - 1) true (do_ops os s1))) = n3 ++ log (do_ops os s1)).
      { clear. generalize (do_ops os s1). intros z. generalize (ready - 1) true. revert z.
        induction is as [|k is IH]; intros z rd rf; [exists []; reflexivity|]. rewrite handle_loop_step.
        destruct ((0 <? rd) && negb (interrupted z)); [|exists []; reflexivity].
        destruct (inputs k); [|apply IH]. destruct (actions (clear k z) k) as [x|].
        - destruct (IH (do_ops (react W (Call k x :: log z) k x) (note (Call k x) (clear k z))) (rd - 1) true) as (n & ->).
          destruct (ops_log (react W (Call k x :: log z) k x) (note (Call k x) (clear k z))) as (m & -> & _).
          cbn [note log]. rewrite clear_log. exists (n ++ m ++ [Call k x]). rewrite <- !app_assoc. reflexivity.
        - destruct (IH (clear k z) (rd - 1) rf) as (n & ->). rewrite clear_log. exists n. reflexivity. }
      destruct LG as (n3 & E3).
      assert (EN : new = n3 ++ n2 ++ [Call j c']).
      { apply (app_inv_tail (log s)). rewrite <- E, E3, E2. unfold s1. cbn [note log]. rewrite clear_log, <- !app_assoc. reflexivity. }
      destruct (Nat.eq_dec i j) as [->|N].
      * rewrite clear_act, (inv_act s I) in A. rewrite EN. apply in_or_app. right. apply in_or_app. right. left. congruence.
      * destruct Hi as [Hi|Hi]; [congruence|].
        rewrite EN. apply in_or_app. left.
        apply (IH (ready - 1) true (do_ops os s1) n3 Hi Q ltac:(lia) I2 INT2 E3).
        -- intros e He. apply U. rewrite EN. apply in_or_app. left. exact He.
        -- rewrite E2. rewrite current_untouched.
           ++ unfold s1. cbn [note log current]. rewrite clear_log. exact CU.
           ++ intros e He. apply U. rewrite EN. apply in_or_app. right. apply in_or_app. left. exact He.
    + assert (N : i <> j).
      { intros ->. rewrite clear_act, (inv_act s I) in A. congruence. }
      destruct Hi as [Hi|Hi]; [congruence|].
      apply (IH (ready - 1) refresh (clear j s) new Hi Q ltac:(lia) (inv_clear j s I)).
      * rewrite clear_int. exact INT.
      * rewrite clear_log. exact E.
      * exact U.
      * rewrite clear_log. exact CU.
  - assert (N : i <> j) by (intros ->; congruence).
    destruct Hi as [Hi|Hi]; [congruence|].
    exact (IH ready refresh s new Hi Q R I INT E U c CU).
Qed.

(** A mark is served or kept. *)
Lemma ops_pending : forall os s i, pending s i = true -> pending (do_ops os s) i = true.
Proof.
  induction os as [|o os IH]; intros s i P; [exact P|]. cbn [do_ops fold_left]. apply IH.
  unfold do_op, note. cbn [pending]. destruct o as [j c|j|j| |]; cbn [pending]; auto.
  destruct (pending s j) eqn:Q; [exact P|]. cbn [pending].
  destruct (Nat.eq_dec i j) as [->|N]; [apply put_same|rewrite put_other by exact N; exact P].
Qed.

Lemma handle_loop_log inputs : forall is ready refresh s,
  exists new, log (snd (handle_loop W is inputs ready refresh s)) = new ++ log s.
Proof.
  induction is as [|k is IH]; intros rd rf z; [exists []; reflexivity|]. rewrite handle_loop_step.
  destruct ((0 <? rd) && negb (interrupted z)); [|exists []; reflexivity].
  destruct (inputs k); [|apply IH]. destruct (actions (clear k z) k) as [x|].
  - destruct (IH (rd - 1) true (do_ops (react W (Call k x :: log z) k x) (note (Call k x) (clear k z)))) as (n & ->).
    destruct (ops_log (react W (Call k x :: log z) k x) (note (Call k x) (clear k z))) as (m & -> & _).
    cbn [note log]. rewrite clear_log. exists (n ++ m ++ [Call k x]). rewrite <- !app_assoc. reflexivity.
  - destruct (IH (rd - 1) rf (clear k z)) as (n & ->). rewrite clear_log. exists n. reflexivity.
Qed.

Lemma handle_loop_keep inputs i : forall is ready refresh s new,
  inv s -> pending s i = true ->
  log (snd (handle_loop W is inputs ready refresh s)) = new ++ log s ->
  (forall e, In e new -> ~ touches i e) -> forall c, current (log s) i = Some c ->
  In (Call i c) new \/ pending (snd (handle_loop W is inputs ready refresh s)) i = true.
Proof.
  induction is as [|j is IH]; intros ready refresh s new I P E U c CU; [right; exact P|].
  rewrite handle_loop_step in *. destruct ((0 <? ready) && negb (interrupted s)); [|right; exact P].
  destruct (inputs j) eqn:Qj; [|exact (IH ready refresh s new I P E U c CU)].
  destruct (actions (clear j s) j) as [c'|] eqn:A.
  - set (s1 := note (Call j c') (clear j s)) in *.
    set (os := react W (Call j c' :: log s) j c') in *.
    destruct (ops_log os s1) as (n2 & E2 & H2 & C2).
    destruct (handle_loop_log inputs is (ready - 1) true (do_ops os s1)) as (n3 & E3).
    assert (EN : new = n3 ++ n2 ++ [Call j c']).
    { apply (app_inv_tail (log s)). rewrite <- E, E3, E2. unfold s1. cbn [note log]. rewrite clear_log, <- !app_assoc. reflexivity. }
    destruct (Nat.eq_dec i j) as [->|N].
    + left. rewrite clear_act, (inv_act s I) in A. rewrite EN. apply in_or_app. right. apply in_or_app. right. left. congruence.
    + assert (I1 : inv s1) by (apply inv_call; [exact A|apply inv_clear; exact I]).
      destruct (IH (ready - 1) true (do_ops os s1) n3) with (c := c) as [H|H].
      * apply inv_ops; [apply (proj1 SANE)|exact I1].
      * apply ops_pending. unfold s1. cbn [note pending]. rewrite clear_pend.
        destruct (Nat.eqb_spec i j); [contradiction|exact P].
      * exact E3.
      * intros e He. apply U. rewrite EN. apply in_or_app. left. exact He.
      * rewrite E2, current_untouched.
        -- unfold s1. cbn [note log current]. rewrite clear_log. exact CU.
        -- intros e He. apply U. rewrite EN. apply in_or_app. right. apply in_or_app. left. exact He.
      * left. rewrite EN. apply in_or_app. left. exact H.
      * right. exact H.
  - assert (N : i <> j).
    { intros ->. rewrite clear_act, (inv_act s I) in A. congruence. }
    apply (IH (ready - 1) refresh (clear j s) new (inv_clear j s I)).
    + rewrite clear_pend. destruct (Nat.eqb_spec i j); [contradiction|exact P].
    + rewrite clear_log. exact E.
    + exact U.
    + rewrite clear_log. exact CU.
Qed.

(** ** handle_input *)

Lemma proc_loop_log : forall ks ret s, exists new,
  log (snd (proc_loop W ks ret s)) = new ++ log s /\ called new = [].
Proof.
  induction ks as [|k ks IH]; intros ret s; [exists []; split; reflexivity|]. cbn [proc_loop].
  destruct (periodic W (log (note (Periodic k) s)) k) as [os b].
  destruct (IH (if b then true else ret) (do_ops os (note (Periodic k) s))) as (n & E & C).
  destruct (ops_log os (note (Periodic k) s)) as (m & E2 & _ & C2).
  exists (n ++ m ++ [Periodic k]). rewrite E, E2, !called_app, C, C2, <- !app_assoc. split; reflexivity.
Qed.
Lemma proc_loop_pending : forall ks ret s i, pending s i = true -> pending (snd (proc_loop W ks ret s)) i = true.
Proof.
  induction ks as [|k ks IH]; intros ret s i P; [exact P|]. cbn [proc_loop].
  destruct (periodic W (log (note (Periodic k) s)) k) as [os b]. apply IH. apply ops_pending. exact P.
Qed.

Lemma handle_input_pos inputs ready s : 0 < ready ->
  exists new1 new2, let h := handle_loop W (seq 0 size) inputs ready false (set_idle 0 s) in
    log (snd h) = new1 ++ log s /\
    log (snd (handle_input W size ncallbacks inputs ready s)) = new2 ++ new1 ++ log s /\ called new2 = [] /\
    (forall i, pending (snd h) i = true -> pending (snd (handle_input W size ncallbacks inputs ready s)) i = true).
Proof.
  intros P. destruct (handle_loop_log inputs (seq 0 size) ready false (set_idle 0 s)) as (n1 & E1).
  unfold handle_input. replace (0 <? ready) with true by lia. cbv zeta.
  destruct (handle_loop W (seq 0 size) inputs ready false (set_idle 0 s)) as [rf s1]. cbn [snd] in *.
  exists n1. destruct (interrupted s1).
  - exists []. split; [exact E1|]. split; [exact E1|]. split; [reflexivity|auto].
  - destruct (proc_loop_log (seq 0 ncallbacks) false s1) as (n2 & E2 & C2).
    pose proof (proc_loop_pending (seq 0 ncallbacks) false s1) as PP.
    destruct (proc_loop W (seq 0 ncallbacks) false s1) as [b s2]. cbn [snd] in *.
    exists n2. split; [exact E1|]. split; [rewrite E2, E1; reflexivity|]. split; [exact C2|exact PP].
Qed.

Lemma handle_input_zero inputs ready s : ready <= 0 ->
  exists new, log (snd (handle_input W size ncallbacks inputs ready s)) = new ++ log s /\ called new = [] /\
    (forall i, pending s i = true -> pending (snd (handle_input W size ncallbacks inputs ready s)) i = true).
Proof.
  intros P. unfold handle_input. replace (0 <? ready) with false by lia.
  cbv iota.
  match goal with |- context [if ready =? 0 then ?a else ?b] =>
    set (e := if ready =? 0 then a else b) in *;
    assert (H : exists n, log (snd e) = n ++ log s /\ called n = [] /\ (forall i, pending s i = true -> pending (snd e) i = true)) end.
  { unfold e. destruct (ready =? 0); [|exists []; repeat split; auto].
    destruct (interrupted s); [exists []; repeat split; auto|].
    destruct (on_idle W (log (note (Idle (idle_period s)) s)) (idle_period (note (Idle (idle_period s)) s))) as [os b].
    destruct (ops_log os (note (Idle (idle_period s)) s)) as (m & E2 & _ & C2).
    exists (m ++ [Idle (idle_period s)]). cbn [snd set_idle log pending]. rewrite E2, called_app, C2, <- app_assoc.
    split; [reflexivity|]. split; [reflexivity|]. intros i Hi. apply ops_pending. exact Hi. }
  revert H. destruct e as [rf s1].
  cbn [snd]. intros (n1 & E1 & C1 & P1). destruct (interrupted s1); [exists n1; auto|].
  destruct (proc_loop_log (seq 0 ncallbacks) false s1) as (n2 & E2 & C2).
  pose proof (proc_loop_pending (seq 0 ncallbacks) false s1) as PP.
  destruct (proc_loop W (seq 0 ncallbacks) false s1) as [b s2]. cbn [snd] in *.
  exists (n2 ++ n1). rewrite E2, E1, called_app, C1, C2, app_assoc. split; [reflexivity|]. split; [reflexivity|]. auto.
Qed.

Lemma seq_sorted : forall n a, StronglySorted lt (seq a n).
Proof.
  induction n as [|n IH]; intros a; cbn [seq]; constructor; [apply IH|].
  apply Forall_forall. intros j Hj. apply in_seq in Hj. lia.
Qed.

Lemma handle_input_order inputs ready s :
  exists new, log (snd (handle_input W size ncallbacks inputs ready s)) = new ++ log s /\
    StronglySorted gt (called new) /\ (forall i, In i (called new) -> 0 < ready /\ inputs i = true).
Proof.
  destruct (Z.lt_ge_cases 0 ready) as [P|P].
  - destruct (handle_input_pos inputs ready s P) as (n1 & n2 & E1 & E2 & C2 & _). cbv zeta in *.
    destruct (handle_loop_order inputs (seq 0 size) ready false (set_idle 0 s) (seq_sorted size 0)) as (n & En & O & M).
    rewrite E1 in En. apply app_inv_tail in En. subst n.
    exists (n2 ++ n1). rewrite E2, <- app_assoc, called_app, C2. split; [reflexivity|]. split; [exact O|].
    intros i Hi. split; [exact P|]. apply M. exact Hi.
  - destruct (handle_input_zero inputs ready s P) as (n & E & C & _). exists n. split; [exact E|].
    rewrite C. split; [constructor|intros i []].
Qed.

(** ** Reachable states *)

Lemma accept_inv fuel ms copy s a s' : inv s ->
  accept W size chunk garbage ncallbacks fuel ms copy s = Some (a, s') -> inv s'.
Proof.
  intros I. unfold accept.
  destruct (wait_for_input W size chunk garbage fuel copy ms s) as [[[r c] s1]|] eqn:E; [|discriminate].
  destruct (wait_ok _ _ _ _ _ _ _ I E) as (I1 & _). intros H. injection H as _ <-.
  destruct ((0 <? r) && negb (interrupted s1)); [apply handle_input_inv|]; exact I1.
Qed.

Lemma step_inv s s' : inv s -> step W size chunk garbage ncallbacks s s' -> inv s'.
Proof.
  intros I H. destruct H as [o s L|fuel s b s' E|fuel ms s a s' E|fuel ms cs s a s' E|fuel ms l s a s' E|fuel i s b s' E].
  - apply inv_op; assumption.
  - unfold turn in E. destruct (interrupted s); [injection E as _ <-; exact I|].
    destruct (wait_for_input W size chunk garbage fuel (input_fdset s) chunk s) as [[[r c] s1]|] eqn:E1; [|discriminate].
    destruct (wait_ok _ _ _ _ _ _ _ I E1) as (I1 & _).
    pose proof (handle_input_inv c r s1 I1) as H. injection E as E. rewrite E in H. exact H.
  - unfold sit_for in E.
    destruct (wait_for_input W size chunk garbage fuel (input_fdset s) ms s) as [[[r c] s1]|] eqn:E1; [|discriminate].
    destruct (wait_ok _ _ _ _ _ _ _ I E1) as (I1 & _). injection E as _ <-. exact I1.
  - exact (accept_inv _ _ _ _ _ _ I E).
  - exact (accept_inv _ _ _ _ _ _ I E).
  - unfold poll_input in E.
    destruct (wait_for_input W size chunk garbage fuel (put none i true) 0 s) as [[[r c] s1]|] eqn:E1; [|discriminate].
    destruct (wait_ok _ _ _ _ _ _ _ I E1) as (I1 & _). injection E as _ <-. exact I1.
Qed.

Lemma reach_inv s : reach W size chunk garbage ncallbacks s -> inv s.
Proof. induction 1 as [|s s' R IH ST]; [apply inv_start|exact (step_inv _ _ IH ST)]. Qed.

End Inv.

Lemma calls_ok_split l : calls_ok l -> forall later i c earlier,
  l = later ++ Call i c :: earlier -> current earlier i = Some c.
Proof.
  induction l as [|e l IH]; intros H later i c earlier E; [destruct later; discriminate|].
  destruct H as [H1 H2]. destruct later as [|x later]; cbn [app] in E; injection E as -> ->.
  - exact H2.
  - exact (IH H1 later i c earlier eq_refl).
Qed.
