(** C89: input handlers and the event loop. *)

From Coq Require Import ZArith List Bool Lia ZifyBool Sorting.Sorted.
From Verif Require Import Inputs_Model Inputs_Spec Inputs_Proofs Inputs_Time.
Import ListNotations.
Open Scope Z_scope.

(** A callback is called only while it is the one registered for its descriptor,
    whatever callbacks and other threads do. *)
Theorem C89_registered : forall W size chunk garbage n s,
  sane size W -> reach W size chunk garbage n s ->
  forall later i c earlier, log s = later ++ Call i c :: earlier -> current earlier i = Some c.
Proof.
  intros W size chunk garbage n s S R. apply calls_ok_split.
  exact (inv_calls _ _ (reach_inv size W S chunk garbage n s R)).
Qed.
Print Assumptions C89_registered.

(** The tables say what was registered last, and the counter counts the marks. *)
Theorem C89_tables : forall W size chunk garbage n s,
  sane size W -> reach W size chunk garbage n s ->
  (forall i, actions s i = current (log s) i) /\
  (forall i, input_fdset s i = true <-> current (log s) i <> None) /\
  pending_count s = card size (pending s) /\
  (forall i, pending s i = true \/ input_fdset s i = true -> (i < size)%nat).
Proof.
  intros W size chunk garbage n s S R. destruct (reach_inv size W S chunk garbage n s R) as [A B C D E F].
  split; [exact A|]. split.
  { intros i. rewrite B. destruct (current (log s) i); cbn; split; congruence. }
  split; [exact D|]. intros i [H|H]; auto.
Qed.
Print Assumptions C89_tables.

Section Turn.
Variable W : world.
Variable size : nat.
Variable chunk : Z.
Variable garbage : fdset.
Variable n : nat.
Hypothesis SANE : sane size W.

Lemma card_members size' x : card size' x = Z.of_nat (length (filter x (seq 0 size'))).
Proof. reflexivity. Qed.

Lemma served r c s1 i cb new :
  (forall l j c, ~ In Throw (react W l j c)) ->
  inv size s1 -> interrupted s1 = false -> 0 < r -> r = card size c -> c i = true -> (i < size)%nat ->
  current (log s1) i = Some cb ->
  log (snd (handle_input W size n c r s1)) = new ++ log s1 ->
  (forall e, In e new -> ~ touches i e) -> In (Call i cb) new.
Proof.
  intros CALM I INT P R Q L CU E U.
  destruct (handle_input_pos size W n c r s1 P) as (n1 & n2 & E1 & E2 & _ & _). cbv zeta in *.
  assert (EN : new = n2 ++ n1).
  { apply (app_inv_tail (log s1)). rewrite <- E, E2, <- app_assoc. reflexivity. }
  rewrite EN. apply in_or_app. right.
  apply (handle_loop_complete size W SANE c i CALM (seq 0 size) r false (set_idle 0 s1) n1).
  - apply in_seq0. exact L.
  - exact Q.
  - exact R.
  - apply inv_idle. exact I.
  - exact INT.
  - exact E1.
  - intros e He. apply U. rewrite EN. apply in_or_app. right. exact He.
  - exact CU.
Qed.

Lemma mark_pending i s : pending (do_op (Mark i) s) i = true.
Proof.
  unfold do_op, note. cbn [pending]. destruct (pending s i) eqn:P; [exact P|]. cbn [pending]. apply put_same.
Qed.

(** What is marked as having input is served in the next turn. *)
Theorem C89_marked_served : forall s0 s fuel b s' new i c,
  calm W -> reach W size chunk garbage n s0 -> interrupted s0 = false -> (i < size)%nat ->
  s = do_op (Mark i) s0 -> current (log s0) i = Some c ->
  turn W size chunk garbage n fuel s = Some (b, s') ->
  log s' = new ++ log s -> (forall e, In e new -> ~ touches i e) -> In (Call i c) new.
Proof.
  intros s0 s fuel b s' new i c CALM R INT Li -> CU E EN U. set (s := do_op (Mark i) s0) in *.
  pose proof (reach_inv size W SANE chunk garbage n s0 R) as I0.
  assert (I : inv size s) by (apply inv_op; [exact Li|exact I0]).
  assert (INT1 : interrupted s = false).
  { unfold s, do_op, note. cbn [interrupted]. destruct (pending s0 i); exact INT. }
  assert (CU1 : current (log s) i = Some c).
  { replace (log s) with (Did (Mark i) :: log s0); [exact CU|].
    unfold s, do_op, note. cbn [log]. destruct (pending s0 i); reflexivity. }
  unfold turn in E. rewrite INT1 in E.
  destruct (wait_for_input W size chunk garbage fuel (input_fdset s) chunk s) as [[[r y] s1]|] eqn:E1; [|discriminate].
  assert (Q : input_fdset s i = true) by (rewrite (inv_reg _ _ I), CU1; reflexivity).
  destruct (wait_pending size W chunk garbage (input_fdset s) fuel chunk s i r y s1 I (mark_pending i s0) Q E1)
    as (-> & P & RC & Y).
  injection E as E. apply (served r y s i c new); auto.
  - apply (proj1 CALM).
  - apply Y. repeat split; auto. apply mark_pending.
  - rewrite E. exact EN.
Qed.

(** What select reports is served; the count it gives misses none. *)
Theorem C89_ready_served : forall s fuel b s' new r y i c,
  calm W -> reach W size chunk garbage n s -> interrupted s = false ->
  (forall j, pending s j && input_fdset s j = false) ->
  kernel W (log s) (input_fdset s) (Z.min chunk (max_sleep W (log s))) = (r, y) -> 0 <= r -> y i = true ->
  current (log s) i = Some c ->
  turn W size chunk garbage n fuel s = Some (b, s') ->
  log s' = new ++ log s -> (forall e, In e new -> ~ touches i e) -> In (Call i c) new.
Proof.
  intros s fuel b s' new r y i c CALM R INT NP K R0 Yi CU E EN U.
  pose proof (reach_inv size W SANE chunk garbage n s R) as I.
  pose proof SANE as (_ & _ & _ & _ & _ & KE). destruct (KE _ _ _ _ _ K) as (_ & KR).
  destruct (KR R0) as (RC & YI). destruct (YI i Yi) as (Ii & Li).
  assert (P : 0 < r).
  { rewrite RC, card_members. pose proof (filter_pos y i (seq 0 size) (proj2 (in_seq0 i size) Li) Yi) as H.
    unfold fd in *. lia. }
  unfold turn in E. rewrite INT in E.
  assert (WL : forall k, wait_loop W chunk (S k) (input_fdset s) chunk (-1) s
                 = Some (r, y, note (Select (Z.min chunk (max_sleep W (log s)))) s)).
  { intros k. cbn [wait_loop]. rewrite Z.min_id. replace (-1 =? 0) with false by reflexivity. cbn [andb].
    rewrite K. replace (r =? 0) with false by lia. reflexivity. }
  assert (W1 : wait_for_input W size chunk garbage fuel (input_fdset s) chunk s
               = wait_loop W chunk fuel (input_fdset s) chunk (-1) s).
  { unfold wait_for_input. destruct (0 <? pending_count s); [|reflexivity].
    destruct (scan_start size garbage (input_fdset s) s I) as (k & o & -> & Ck & _).
    replace (0 <? k) with false; [reflexivity|]. symmetry. apply Z.ltb_ge. rewrite Ck, card_members.
    assert (G : filter (fun i => pending s i && input_fdset s i) (seq 0 size) = []).
    { generalize (seq 0 size). intros l. induction l as [|j l IHl]; [reflexivity|]. cbn [filter]. rewrite NP. exact IHl. }
    unfold fd in *. rewrite G. cbn. lia. }
  rewrite W1 in E. destruct fuel as [|k]; [discriminate|]. rewrite WL in E. injection E as E.
  set (s1 := note (Select (Z.min chunk (max_sleep W (log s)))) s) in *.
  destruct (handle_input_order size W n y r s1) as (new1 & E1 & _).
  rewrite E in E1. cbn [snd] in E1.
  assert (EN1 : new = new1 ++ [Select (Z.min chunk (max_sleep W (log s)))]).
  { apply (app_inv_tail (log s)). rewrite <- EN, E1. unfold s1. cbn [note log]. rewrite <- app_assoc. reflexivity. }
  rewrite EN1. apply in_or_app. left.
  apply (served r y s1 i c new1); auto.
  - apply (proj1 CALM).
  - apply inv_note; [exact Logic.I|exact I].
  - rewrite E. exact E1.
  - intros e He. apply U. rewrite EN1. apply in_or_app. left. exact He.
Qed.

(** In a turn each descriptor is called at most once, the lower before the higher,
    and only descriptors that were registered when it began. *)
Theorem C89_turn_order : forall s fuel b s', reach W size chunk garbage n s ->
  turn W size chunk garbage n fuel s = Some (b, s') ->
  exists new, log s' = new ++ log s /\ StronglySorted gt (called new) /\
    (forall i, In i (called new) -> current (log s) i <> None).
Proof.
  intros s fuel b s' R E. pose proof (reach_inv size W SANE chunk garbage n s R) as I.
  unfold turn in E. destruct (interrupted s).
  { injection E as _ <-. exists []. split; [reflexivity|]. split; [constructor|intros i []]. }
  destruct (wait_for_input W size chunk garbage fuel (input_fdset s) chunk s) as [[[r y] s1]|] eqn:E1; [|discriminate].
  destruct (wait_ok size W SANE chunk garbage _ _ _ _ _ _ _ I E1) as (_ & (_ & F) & n1 & L1 & C1).
  destruct (handle_input_order size W n y r s1) as (n2 & L2 & O & M). injection E as E. rewrite E in L2. cbn [snd] in L2.
  exists (n2 ++ n1). rewrite L2, L1, called_app, C1, app_nil_r, app_assoc. split; [reflexivity|]. split; [exact O|].
  intros i Hi. destruct (M i Hi) as (P & Q). destruct (F P) as (_ & G). destruct (G i Q) as (Z & _).
  rewrite (inv_reg _ _ I) in Z. destruct (current (log s) i); [discriminate|discriminate Z].
Qed.

(** A turn that an exception cuts short loses no mark. *)
Theorem C89_marks_kept : forall s fuel b s' new i c, reach W size chunk garbage n s ->
  pending s i = true -> current (log s) i = Some c ->
  turn W size chunk garbage n fuel s = Some (b, s') ->
  log s' = new ++ log s -> (forall e, In e new -> ~ touches i e) ->
  In (Call i c) new \/ pending s' i = true.
Proof.
  intros s fuel b s' new i c R Pi CU E EN U. pose proof (reach_inv size W SANE chunk garbage n s R) as I.
  unfold turn in E. destruct (interrupted s); [injection E as _ <-; right; exact Pi|].
  destruct (wait_for_input W size chunk garbage fuel (input_fdset s) chunk s) as [[[r y] s1]|] eqn:E1; [|discriminate].
  assert (Q : input_fdset s i = true) by (rewrite (inv_reg _ _ I), CU; reflexivity).
  destruct (wait_pending size W chunk garbage (input_fdset s) fuel chunk s i r y s1 I Pi Q E1) as (-> & P & _ & _).
  destruct (handle_input_pos size W n y r s P) as (n1 & n2 & L1 & L2 & _ & K). cbv zeta in *.
  injection E as E. rewrite E in L2, K. cbn [snd] in L2, K.
  assert (EN1 : new = n2 ++ n1).
  { apply (app_inv_tail (log s)). rewrite <- EN, L2, <- app_assoc. reflexivity. }
  destruct (handle_loop_keep size W SANE y i (seq 0 size) r false (set_idle 0 s) n1) with (c := c) as [H|H].
  - apply inv_idle. exact I.
  - exact Pi.
  - exact L1.
  - intros e He. apply U. rewrite EN1. apply in_or_app. right. exact He.
  - exact CU.
  - left. rewrite EN1. apply in_or_app. right. exact H.
  - right. apply K. exact H.
Qed.

Lemma accept_called fuel ms copy s a s' : reach W size chunk garbage n s ->
  accept W size chunk garbage n fuel ms copy s = Some (a, s') ->
  exists new, log s' = new ++ log s /\ StronglySorted gt (called new) /\
    (forall i, In i (called new) -> copy i = true).
Proof.
  intros R. pose proof (reach_inv size W SANE chunk garbage n s R) as I. unfold accept.
  destruct (wait_for_input W size chunk garbage fuel copy ms s) as [[[r y] s1]|] eqn:E1; [|discriminate].
  destruct (wait_ok size W SANE chunk garbage _ _ _ _ _ _ _ I E1) as (_ & (_ & F) & n1 & L1 & C1).
  intros E. injection E as _ <-. destruct ((0 <? r) && negb (interrupted s1)).
  - destruct (handle_input_order size W n y r s1) as (n2 & L2 & O & M).
    exists (n2 ++ n1). rewrite L2, L1, called_app, C1, app_nil_r, app_assoc. split; [reflexivity|]. split; [exact O|].
    intros i Hi. destruct (M i Hi) as (P & Q). destruct (F P) as (_ & G). apply (G i Q).
  - exists n1. rewrite C1. split; [exact L1|]. split; [constructor|intros i []].
Qed.

(** Waiting for some descriptors calls no others. *)
Theorem C89_only_fds : forall s fuel ms fds a s', reach W size chunk garbage n s ->
  accept_fds W size chunk garbage n fuel ms fds s = Some (a, s') ->
  exists new, log s' = new ++ log s /\ StronglySorted gt (called new) /\
    (forall i, In i (called new) -> In i fds /\ current (log s) i <> None).
Proof.
  intros s fuel ms fds a s' R E. pose proof (reach_inv size W SANE chunk garbage n s R) as I.
  destruct (accept_called _ _ _ _ _ _ R E) as (new & L & O & M). exists new. split; [exact L|]. split; [exact O|].
  intros i Hi. specialize (M i Hi). cbv beta in M. apply andb_prop in M. destruct M as [M1 M2]. split.
  - apply existsb_exists in M1. destruct M1 as (j & Hj & EQ). apply Nat.eqb_eq in EQ. subst j. exact Hj.
  - rewrite (inv_reg _ _ I) in M2. destruct (current (log s) i); [discriminate|discriminate M2].
Qed.

(** Waiting for some callbacks calls only descriptors that have one of them. *)
Theorem C89_only_callbacks : forall s fuel ms cs a s', reach W size chunk garbage n s ->
  accept_callbacks W size chunk garbage n fuel ms cs s = Some (a, s') ->
  exists new, log s' = new ++ log s /\ StronglySorted gt (called new) /\
    (forall i, In i (called new) -> exists c, current (log s) i = Some c /\ In c cs).
Proof.
  intros s fuel ms cs a s' R E. pose proof (reach_inv size W SANE chunk garbage n s R) as I.
  destruct (accept_called _ _ _ _ _ _ R E) as (new & L & O & M). exists new. split; [exact L|]. split; [exact O|].
  intros i Hi. specialize (M i Hi). cbv beta in M. apply andb_prop in M. destruct M as [_ M].
  rewrite (inv_act _ _ I) in M. destruct (current (log s) i) as [c|]; [|discriminate]. exists c. split; [reflexivity|].
  apply existsb_exists in M. destruct M as (j & Hj & EQ). apply Nat.eqb_eq in EQ. subst j. exact Hj.
Qed.

(** sit-for comes back, waits no longer than it was told to, and calls nothing. *)
Theorem C89_sit_for_bound : forall s ms, reach W size chunk garbage n s -> 0 < chunk -> 0 <= ms ->
  exists enough, forall fuel, (enough <= fuel)%nat ->
  exists a s' new, sit_for W size chunk garbage fuel ms s = Some (a, s') /\
    log s' = new ++ log s /\ spent new <= ms /\ called new = [].
Proof.
  intros s ms R CH MS. pose proof (reach_inv size W SANE chunk garbage n s R) as I.
  exists (S (Z.to_nat ms)). intros fuel F.
  destruct (wait_time W size SANE chunk CH garbage (input_fdset s) fuel ms s I MS ltac:(lia)) as (r & c & s' & new & E & L & C & S & _).
  unfold sit_for. rewrite E. eexists _, s', new. split; [reflexivity|]. split; [exact L|]. split; [lia|exact C].
Qed.

(** When nothing happens it waits exactly as long and says t. *)
Theorem C89_sit_for_waits : forall s ms, calm W -> (forall l x t, fst (kernel W l x t) = 0) ->
  reach W size chunk garbage n s -> interrupted s = false ->
  (forall i, pending s i = true -> current (log s) i = None) -> 0 < chunk -> 0 <= ms ->
  exists enough, forall fuel, (enough <= fuel)%nat ->
  exists s' new, sit_for W size chunk garbage fuel ms s = Some (T, s') /\
    log s' = new ++ log s /\ spent new = ms /\ called new = [].
Proof.
  intros s ms CALM KZ R INT NP CH MS. pose proof (reach_inv size W SANE chunk garbage n s R) as I.
  exists (S (Z.to_nat ms)). intros fuel F.
  destruct (wait_time W size SANE chunk CH garbage (input_fdset s) fuel ms s I MS ltac:(lia)) as (r & c & s' & new & E & L & C & _ & X).
  destruct (X CALM KZ INT) as (-> & SP & I').
  { intros i. destruct (pending s i) eqn:P; [|reflexivity]. rewrite (inv_reg _ _ I), (NP i P). reflexivity. }
  unfold sit_for. rewrite E, I'. exists s', new. split; [reflexivity|]. auto.
Qed.

(** The set that is not initialised is not read. *)
Theorem C89_uninitialised : forall garbage' fuel s ms inputs,
  wait_for_input W size chunk garbage fuel inputs ms s = wait_for_input W size chunk garbage' fuel inputs ms s /\
  turn W size chunk garbage n fuel s = turn W size chunk garbage' n fuel s.
Proof.
  intros g' fuel s ms inputs. split; [apply wait_garbage|]. unfold turn.
  rewrite (wait_garbage W size chunk garbage g'). reflexivity.
Qed.

End Turn.
Print Assumptions C89_marked_served.
Print Assumptions C89_ready_served.
Print Assumptions C89_turn_order.
Print Assumptions C89_marks_kept.
Print Assumptions C89_only_fds.
Print Assumptions C89_only_callbacks.
Print Assumptions C89_sit_for_bound.
Print Assumptions C89_sit_for_waits.
Print Assumptions C89_uninitialised.

(** ** Cases *)

(** Worlds with eight descriptors.  select says what a function of the set says. *)
Definition below (x : fdset) : fdset := fun i => x i && Nat.ltb i 8.
Definition a_world (re : fd -> list op) (k : fdset -> Z * fdset) : world :=
  mkworld (fun _ i _ => re i) (fun _ _ => ([], false)) (fun _ _ => ([], false)) (fun _ => [])
    (fun _ => false) (fun _ => 100000) (fun _ x _ => k x).
Definition ready_all (x : fdset) : Z * fdset := (card 8 (below x), below x).
Definition ready_none (x : fdset) : Z * fdset := (0, none).
Definition signalled (x : fdset) : Z * fdset := (-1, x).

Lemma below_in x i : below x i = true -> x i = true /\ (i < 8)%nat.
Proof. unfold below. intros H. apply andb_prop in H. destruct H as [H1 H2]. apply Nat.ltb_lt in H2. auto. Qed.

Lemma a_world_sane re k : (forall i, Forall (fd_op 8) (re i)) ->
  (forall x r y, k x = (r, y) -> -1 <= r /\ (0 <= r -> r = card 8 y /\ forall i, y i = true -> x i = true /\ (i < 8)%nat)) ->
  sane 8 (a_world re k).
Proof.
  intros A B. split; [intros; apply A|]. split; [constructor|]. split; [constructor|]. split; [constructor|].
  split; [cbn; lia|]. intros l x ms r y E. exact (B x r y E).
Qed.
Lemma ready_all_ok x r y : ready_all x = (r, y) ->
  -1 <= r /\ (0 <= r -> r = card 8 y /\ forall i, y i = true -> x i = true /\ (i < 8)%nat).
Proof.
  unfold ready_all. intros E. inversion E; subst. split; [unfold card; lia|]. intros _. split; [reflexivity|apply below_in].
Qed.
Lemma ready_none_ok x r y : ready_none x = (r, y) ->
  -1 <= r /\ (0 <= r -> r = card 8 y /\ forall i, y i = true -> x i = true /\ (i < 8)%nat).
Proof. unfold ready_none. intros E. inversion E; subst. split; [lia|]. intros _. split; [reflexivity|discriminate]. Qed.
Lemma signalled_ok x r y : signalled x = (r, y) ->
  -1 <= r /\ (0 <= r -> r = card 8 y /\ forall i, y i = true -> x i = true /\ (i < 8)%nat).
Proof. unfold signalled. intros E. inversion E; subst. split; [lia|lia]. Qed.

Definition still (i : fd) : list op := [].
Lemma still_ok i : Forall (fd_op 8) (still i).
Proof. constructor. Qed.
Lemma calm_world re k : (forall i, ~ In Throw (re i)) -> calm (a_world re k).
Proof. intros H. split; [intros; apply H|]. split; [reflexivity|]. intros l []. Qed.

Lemma reach_ops W chunk g n l : Forall (fd_op 8) l -> reach W 8 chunk g n (do_ops l start).
Proof.
  assert (G : forall l s, Forall (fd_op 8) l -> reach W 8 chunk g n s -> reach W 8 chunk g n (do_ops l s)).
  { clear. induction l as [|o l IH]; intros s F R; [exact R|]. inversion F; subst. cbn [do_ops fold_left].
    apply IH; [assumption|]. apply (reach_step _ _ _ _ _ s); [exact R|]. apply step_op. assumption. }
  intros F. apply G; [exact F|constructor].
Qed.

(** Two descriptors of which one is marked: it alone is served, then both. *)
Definition two : st := do_ops [Register 3 0; Register 5 1; Mark 5]%nat start.
Definition answers := a_world still ready_all.
Example case_two :
  reach answers 8 1000 none 0 two /\ calm answers /\ sane 8 answers /\
  (exists b s', turn answers 8 1000 none 0 5 two = Some (b, s') /\ called (log s') = [5]%nat) /\
  (exists b s' b' s'', turn answers 8 1000 none 0 5 two = Some (b, s') /\
     turn answers 8 1000 none 0 5 s' = Some (b', s'') /\ called (log s'') = [5; 3; 5]%nat).
Proof.
  split; [apply reach_ops; repeat constructor|]. split; [apply calm_world; intros i []|].
  split; [apply a_world_sane; [apply still_ok|apply ready_all_ok]|].
  split; [eexists _, _; split; [vm_compute; reflexivity|reflexivity]|].
  eexists _, _, _, _. split; [vm_compute; reflexivity|]. split; [vm_compute; reflexivity|reflexivity].
Qed.

(** A reaction that throws: the other mark is kept. *)
Definition thrower := a_world (fun i => if Nat.eqb i 3 then [Throw] else []) ready_all.
Example case_thrower :
  exists b s', turn thrower 8 1000 none 0 5 (do_ops [Register 3 0; Register 5 1; Mark 5; Mark 3]%nat start) = Some (b, s') /\
    called (log s') = [3]%nat /\ pending s' 5%nat = true /\ pending_count s' = 1.
Proof. eexists _, _. split; [vm_compute; reflexivity|]. repeat split. Qed.

(** Waiting for five seconds while nothing happens. *)
Example case_sit_for :
  exists s', sit_for (a_world still ready_none) 8 1000 none 10 5000 (do_ops [Register 3 0]%nat start) = Some (T, s') /\
    spent (log s') = 5000.
Proof. eexists. split; [vm_compute; reflexivity|reflexivity]. Qed.

Example case_accept :
  exists a s' a' s'',
    accept_fds answers 8 1000 none 0 5 100 [5; 6]%nat (do_ops [Register 3 0; Register 5 1]%nat start) = Some (a, s') /\
    called (log s') = [5]%nat /\
    accept_callbacks answers 8 1000 none 0 5 100 [0]%nat (do_ops [Register 3 0; Register 5 1]%nat start) = Some (a', s'') /\
    called (log s'') = [3]%nat.
Proof. eexists _, _, _, _. split; [vm_compute; reflexivity|]. split; [reflexivity|]. split; [vm_compute; reflexivity|reflexivity]. Qed.

(** ** What does not hold *)

(** lang.texi: sit-for "waits"; a signal ends it at once, and it says that the time
    has passed. *)
Theorem C89_signal_refuted : exists W s s' ms, sane 8 W /\ calm W /\ reach W 8 1000 none 0 s /\
  sit_for W 8 1000 none 10 ms s = Some (T, s') /\ spent (log s') < ms /\ interrupted s' = false.
Proof.
  exists (a_world still signalled), (do_ops [Register 3 0]%nat start).
  eexists _, 5000. split; [apply a_world_sane; [apply still_ok|apply signalled_ok]|].
  split; [apply calm_world; intros i []|]. split; [apply reach_ops; repeat constructor|].
  split; [vm_compute; reflexivity|]. split; reflexivity.
Qed.
Print Assumptions C89_signal_refuted.

(** sit-for does not let input be processed: what is ready stays unserved. *)
Theorem C89_sit_for_serves_refuted : exists W s s', sane 8 W /\ calm W /\ reach W 8 1000 none 0 s /\
  (forall l x ms, x 3%nat = true -> snd (kernel W l x ms) 3%nat = true) /\ current (log s) 3%nat = Some 0%nat /\
  sit_for W 8 1000 none 10 5000 s = Some (Nil, s') /\ called (log s') = [].
Proof.
  exists answers, (do_ops [Register 3 0]%nat start). eexists.
  split; [apply a_world_sane; [apply still_ok|apply ready_all_ok]|].
  split; [apply calm_world; intros i []|]. split; [apply reach_ops; repeat constructor|].
  split; [intros l x ms H; cbn; unfold below; rewrite H; reflexivity|]. split; [reflexivity|].
  split; [vm_compute; reflexivity|reflexivity].
Qed.
Print Assumptions C89_sit_for_serves_refuted.

(** A negative number of seconds is an unsigned long: 584 million years. *)
Theorem C89_negative_refuted : exists W s secs, secs < 0 /\ sane 8 W /\ calm W /\ reach W 8 1000 none 0 s /\
  exists enough, forall fuel, (enough <= fuel)%nat ->
  exists s', Fsit_for W 8 1000 none fuel secs 0 s = Some (T, s') /\ spent (log s') = 2 ^ 64 - 1000.
Proof.
  exists (a_world still ready_none), start, (-1). split; [lia|].
  assert (S : sane 8 (a_world still ready_none)) by (apply a_world_sane; [apply still_ok|apply ready_none_ok]).
  assert (C : calm (a_world still ready_none)) by (apply calm_world; intros i []).
  split; [exact S|]. split; [exact C|]. split; [constructor|].
  destruct (C89_sit_for_waits (a_world still ready_none) 8 1000 none 0 S start (2 ^ 64 - 1000) C) as (N & H);
    [reflexivity|constructor|reflexivity|discriminate|lia|lia|].
  exists N. intros fuel F. destruct (H fuel F) as (s' & new & E & L & SP & _). exists s'.
  unfold Fsit_for. replace ((-1 * 1000 + 0) mod 2 ^ 64) with (2 ^ 64 - 1000) by reflexivity.
  split; [exact E|]. rewrite L. cbn [start log]. rewrite app_nil_r. exact SP.
Qed.
Print Assumptions C89_negative_refuted.

(** Polling says that there is input when it was interrupted. *)
Theorem C89_poll_refuted : exists W s s', sane 8 W /\ reach W 8 1000 none 0 s /\
  (forall l x ms, fst (kernel W l x ms) <= 0) /\ pending s 3%nat = false /\
  poll_input W 8 1000 none 10 3%nat s = Some (true, s').
Proof.
  exists (a_world still signalled), start. eexists.
  split; [apply a_world_sane; [apply still_ok|apply signalled_ok]|]. split; [constructor|].
  split; [cbn; lia|]. split; [reflexivity|]. vm_compute. reflexivity.
Qed.
Print Assumptions C89_poll_refuted.

(** A mark outlives its handler: the next one is called though there is no input. *)
Theorem C89_stale_mark_refuted : exists W s b s', sane 8 W /\ calm W /\ reach W 8 1000 none 0 s /\
  log s = map Did [Register 3 1; Deregister 3; Mark 3; Register 3 0]%nat /\
  (forall l x ms, fst (kernel W l x ms) = 0) /\
  turn W 8 1000 none 0 10 s = Some (b, s') /\ In (Call 3 1)%nat (log s').
Proof.
  exists (a_world still ready_none), (do_ops [Register 3 0; Mark 3; Deregister 3; Register 3 1]%nat start).
  eexists _, _. split; [apply a_world_sane; [apply still_ok|apply ready_none_ok]|].
  split; [apply calm_world; intros i []|]. split; [apply reach_ops; repeat constructor|].
  split; [reflexivity|]. split; [reflexivity|]. split; [vm_compute; reflexivity|]. cbn. auto.
Qed.
Print Assumptions C89_stale_mark_refuted.

(** A descriptor that is closed and opened again by another callback in the same
    turn is called for the input of the former. *)
Theorem C89_reused_refuted : exists W s b s' later, sane 8 W /\ calm W /\ reach W 8 1000 none 0 s /\
  current (log s) 4%nat = Some 1%nat /\
  turn W 8 1000 none 0 10 s = Some (b, s') /\
  log s' = Call 4%nat 2%nat :: Did (Register 4%nat 2%nat) :: Did (Deregister 4%nat) :: later /\
  called later = [3]%nat.
Proof.
  exists (a_world (fun i => if Nat.eqb i 3 then [Deregister 4; Register 4 2]%nat else []) ready_all),
    (do_ops [Register 3 0; Register 4 1]%nat start).
  eexists _, _, _. split; [apply a_world_sane; [|apply ready_all_ok]|].
  { intros i. destruct (Nat.eqb i 3); repeat constructor. }
  split; [apply calm_world; intros i; destruct (Nat.eqb i 3); cbn; intuition discriminate|].
  split; [apply reach_ops; repeat constructor|]. split; [reflexivity|].
  split; [vm_compute; reflexivity|]. split; reflexivity.
Qed.
Print Assumptions C89_reused_refuted.

(** A descriptor that marks itself keeps all others waiting for ever, though select
    would report them. *)
Definition greedy := a_world (fun i => if Nat.eqb i 3 then [Mark 3]%nat else []) ready_all.

Definition starving (s : st) : Prop :=
  inv 8 s /\ interrupted s = false /\ (forall j, pending s j = Nat.eqb j 3) /\
  current (log s) 3%nat = Some 0%nat /\ current (log s) 4%nat = Some 1%nat /\ ~ In 4%nat (called (log s)).

Lemma greedy_sane : sane 8 greedy.
Proof. apply a_world_sane; [|apply ready_all_ok]. intros i. destruct (Nat.eqb i 3); repeat constructor. Qed.

Lemma starving_turn s fuel b s' : starving s -> turn greedy 8 1000 none 0 fuel s = Some (b, s') ->
  starving s' /\ length (called (log s')) = S (length (called (log s))).
Proof.
  intros (I & INT & P & C3 & C4 & NC) E. unfold turn in E. rewrite INT in E.
  destruct (wait_for_input greedy 8 1000 none fuel (input_fdset s) 1000 s) as [[[r y] s1]|] eqn:E1; [|discriminate].
  assert (Q : input_fdset s 3%nat = true) by (rewrite (inv_reg _ _ I), C3; reflexivity).
  destruct (wait_pending 8 greedy 1000 none (input_fdset s) fuel 1000 s 3%nat r y s1 I (eq_trans (P 3%nat) eq_refl) Q E1)
    as (-> & RP & RC & Y).
  assert (YE : forall j, y j = Nat.eqb j 3).
  { intros j. destruct (Nat.eqb_spec j 3) as [->|N].
    - apply Y. split; [lia|]. split; [rewrite P; reflexivity|exact Q].
    - destruct (y j) eqn:Yj; [|reflexivity]. apply Y in Yj. destruct Yj as (_ & H & _). rewrite P in H.
      apply Nat.eqb_eq in H. contradiction. }
  assert (R1 : r = 1).
  { rewrite RC. unfold card. rewrite (members_ext 8 y (fun j => Nat.eqb j 3)) by (intros; apply YE). reflexivity. }
  clear RC RP. subst r. injection E as E.
  assert (H : handle_input greedy 8 0 y 1 s =
    (true, do_op (Mark 3%nat) (note (Call 3 0)%nat (clear 3%nat (set_idle 0 s))))).
  { unfold handle_input. change (0 <? 1) with true. cbv iota. cbn [seq].
    rewrite handle_loop_step. cbn [set_idle interrupted]. rewrite INT, YE. cbn -[handle_loop clear set_idle].
    rewrite handle_loop_step. cbn [set_idle interrupted]. rewrite INT, YE. cbn -[handle_loop clear set_idle].
    rewrite handle_loop_step. cbn [set_idle interrupted]. rewrite INT, YE. cbn -[handle_loop clear set_idle].
    rewrite handle_loop_step. cbn [set_idle interrupted]. rewrite INT, YE. cbn -[handle_loop clear set_idle do_op note].
    rewrite clear_act. cbn [set_idle actions]. rewrite (inv_act _ _ I), C3.
    cbn -[handle_loop clear set_idle do_op note do_ops]. rewrite handle_loop_step.
    cbn -[clear set_idle do_op note]. unfold do_op. unfold note at 1. cbn -[clear set_idle].
    match goal with |- (if interrupted ?z then _ else _) = _ => replace (interrupted z) with false end; [reflexivity|].
    rewrite clear_pend. cbn [Nat.eqb]. cbn. rewrite clear_int. cbn. symmetry. exact INT. }
  rewrite H in E. injection E as _ <-.
  assert (I2 : inv 8 (note (Call 3 0)%nat (clear 3%nat (set_idle 0 s)))).
  { apply inv_call; [|apply inv_clear, inv_idle; exact I]. rewrite clear_act. cbn [set_idle actions].
    rewrite (inv_act _ _ I). exact C3. }
  assert (L : log (do_op (Mark 3%nat) (note (Call 3 0)%nat (clear 3%nat (set_idle 0 s)))) = Did (Mark 3%nat) :: Call 3%nat 0%nat :: log s).
  { unfold do_op. unfold note at 1. cbn [log]. cbn [note pending].
    rewrite clear_pend. cbn [Nat.eqb]. cbn [note log]. rewrite clear_log. reflexivity. }
  split; [split; [|split; [|split; [|rewrite L; split; [|split]]]]|rewrite L; reflexivity].
  - apply inv_op; [cbn; lia|exact I2].
  - unfold do_op. unfold note at 1. cbn [interrupted]. cbn [note pending]. rewrite clear_pend. cbn [Nat.eqb].
    cbn [note interrupted]. rewrite clear_int. exact INT.
  - intros j. unfold do_op. unfold note at 1. cbn [pending]. cbn [note pending]. rewrite clear_pend. cbn [Nat.eqb].
    cbn [note pending]. unfold put. rewrite clear_pend. cbn [set_idle pending]. rewrite P.
    destruct (Nat.eqb j 3); reflexivity.
  - exact C3.
  - exact C4.
  - cbn [called In]. intros [H4|H4]; [discriminate|exact (NC H4)].
Qed.

Theorem C89_starvation_refuted : exists W s0, sane 8 W /\ calm W /\ reach W 8 1000 none 0 s0 /\
  current (log s0) 4%nat = Some 1%nat /\ called (log s0) = [] /\
  (forall l x ms, x 4%nat = true -> snd (kernel W l x ms) 4%nat = true) /\
  (forall k, exists s, turns W 8 1000 none 0 k s0 s) /\
  (forall k s, turns W 8 1000 none 0 k s0 s -> length (called (log s)) = k /\ ~ In 4%nat (called (log s))).
Proof.
  exists greedy, (do_ops [Register 3 0; Register 4 1; Mark 3]%nat start).
  assert (R : reach greedy 8 1000 none 0 (do_ops [Register 3 0; Register 4 1; Mark 3]%nat start))
    by (apply reach_ops; repeat constructor).
  set (s0 := do_ops _ start) in *.
  assert (ST : starving s0).
  { split; [exact (reach_inv 8 greedy greedy_sane 1000 none 0 s0 R)|]. split; [reflexivity|]. split; [|split; [reflexivity|split; [reflexivity|intros []]]].
    intros j. unfold s0. cbn. unfold put. destruct (Nat.eqb j 3); reflexivity. }
  assert (ALL : forall k s, turns greedy 8 1000 none 0 k s0 s -> starving s /\ length (called (log s)) = k).
  { intros k s H. remember s0 as z eqn:Ez. induction H as [|k z s1 fuel b s2 H IH E]; subst; [split; [exact ST|reflexivity]|].
    destruct (IH eq_refl R ST) as (S1 & L1). destruct (starving_turn s1 fuel b s2 S1 E) as (S2 & L2).
    split; [exact S2|]. rewrite L2, L1. reflexivity. }
  split; [exact greedy_sane|].
  split; [apply calm_world; intros i; destruct (Nat.eqb i 3); cbn; intuition discriminate|].
  split; [exact R|]. split; [reflexivity|]. split; [reflexivity|].
  split; [intros l x ms H; cbn; unfold below; rewrite H; reflexivity|]. split.
  - induction k as [|k (s & IH)]; [exists s0; constructor|].
    destruct (ALL k s IH) as (S1 & _). pose proof S1 as (I & INT & _).
    destruct (wait_time greedy 8 greedy_sane 1000 ltac:(lia) none (input_fdset s) 1001 1000 s I ltac:(lia) ltac:(lia))
      as (r & c & s1 & new & E & _).
    destruct (handle_input greedy 8 0 c r s1) as [b s2] eqn:H.
    exists s2. apply (turns_more _ _ _ _ _ k s0 s 1001 b s2 IH). unfold turn. rewrite INT, E, H. reflexivity.
  - intros k s H. destruct (ALL k s H) as (S1 & L). split; [exact L|]. apply S1.
Qed.
Print Assumptions C89_starvation_refuted.
