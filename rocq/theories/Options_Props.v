(** Properties of command line options. *)

From Coq Require Import ZArith List Bool Lia Permutation.
From Verif Require Import Options_Model Options_Spec Options_Proofs.
Import ListNotations.
Open Scope Z_scope.

(** ** One question *)

(** An option is reported absent only when no word stands for it, and then
    nothing changes. *)
Theorem C87_absent : forall o w l ss, plain o -> (forall s, In s ss -> plain s) -> holds l ss ->
  (fst (get_option o w l) = Absent <-> (forall s, In s ss -> ~ looks_like o s)) /\
  (fst (get_option o w l) = Absent -> snd (get_option o w l) = l).
Proof.
  intros o w l ss Po Ps (ND & E).
  assert (D : (forall e, In e l -> exists s, string_of e = Some s /\ match_word o s = false) \/
    exists pre id s cdr, l = pre ++ Str id s :: cdr /\ match_word o s = true /\
      (forall e, In e pre -> exists s, string_of e = Some s /\ match_word o s = false)).
  { clear ND. revert ss E Ps. induction l as [|e l IH]; intros ss E Ps; [left; intros e []|].
    destruct ss as [|s ss]; [discriminate|]. cbn [map] in E. injection E as E1 E2.
    destruct e as [id x|id]; [|discriminate]. cbn [string_of] in E1. injection E1 as ->.
    destruct (match_word o s) eqn:M.
    - right. exists [], id, s, l. split; [reflexivity|]. split; [exact M|intros e []].
    - destruct (IH ss E2 (fun y Hy => Ps y (or_intror Hy))) as [H|(pre & i & y & cdr & -> & M' & H)].
      + left. intros e [<-|He]; [exists s; auto|exact (H e He)].
      + right. exists (Str id s :: pre), i, y, cdr. split; [reflexivity|]. split; [exact M'|].
        intros e [<-|He]; [exists s; auto|exact (H e He)]. }
  unfold get_option. destruct D as [H|(pre & id & s & cdr & El & M & H)].
  - rewrite (loop_miss o w l l H). cbn [fst snd]. split; [|reflexivity].
    split; [|reflexivity]. intros _ s Hs L.
    assert (I : In (Some s) (map string_of l)) by (rewrite E; apply in_map; exact Hs).
    apply in_map_iff in I. destruct I as (e & Ee & Ie). destruct (H e Ie) as (s' & Es & M).
    rewrite Ee in Es. injection Es as <-. apply match_looks in L; [congruence|exact Po|exact (Ps s Hs)].
  - assert (Hs : In s ss).
    { destruct (strings_in l ss (Str id s) E) as (s' & Es & Is).
      - rewrite El. apply in_or_app. right. left. reflexivity.
      - cbn [string_of] in Es. injection Es as ->. exact Is. }
    assert (NA : fst (get_loop o w l l) <> Absent).
    { rewrite El at 1. rewrite loop_skip by exact H. rewrite loop_hit by exact M.
      destruct w; [|discriminate]. destruct (at_ s (length o) =? equals); [discriminate|].
      destruct cdr as [|[id2 s2|id2] cdr]; discriminate. }
    split; [|intros X; contradiction]. split; [intros X; contradiction|].
    intros N. exfalso. apply (N s Hs). apply match_looks; [exact Po|exact (Ps s Hs)|exact M].
Qed.
Print Assumptions C87_absent.

(** ** Several questions *)

(** Asked of a clear line, every question has its right answer, and the words
    that were not asked for are left, in their order. *)
Theorem C87_answers : forall qs its l,
  clear_for qs its -> distinct its -> NoDup (map fst qs) -> holds l (written its) ->
  exists rest, left_over qs its rest /\ holds (snd (ask qs l)) (written rest) /\
    Forall2 (fun q a => right_answer its (fst q) a) qs (fst (ask qs l)).
Proof. exact ask_all. Qed.
Print Assumptions C87_answers.

Lemma perm_clear qs qs' its : Permutation qs qs' -> clear_for qs its -> clear_for qs' its.
Proof.
  intros P (C1 & C2 & C3 & C4 & C5 & C6).
  assert (R : forall q, In q qs' -> In q qs) by (intros q; apply Permutation_in; symmetry; exact P).
  split; [intros a b H; exact (C1 a b (R _ H))|]. split; [exact C2|]. split; [exact C3|].
  split; [intros i o b A B D; exact (C4 i o b A B (R _ D))|].
  split; [intros o v a b A B; exact (C5 o v a b A (R _ B))|].
  intros s a b A B; exact (C6 s a b A (R _ B)).
Qed.

Lemma forall2_in {A B} (P : A -> B -> Prop) l m a b : Forall2 P l m -> In (a, b) (combine l m) -> P a b.
Proof.
  induction 1 as [|x y l m Pxy F IH]; intros H; [destruct H|].
  destruct H as [E|H]; [injection E as -> ->; exact Pxy|exact (IH H)].
Qed.
Lemma forall2_get {A B} (P : A -> B -> Prop) l m a : Forall2 P l m -> In a l ->
  exists b, In (a, b) (combine l m).
Proof.
  induction 1 as [|x y l m Pxy F IH]; intros H; [destruct H|].
  destruct H as [->|H]; [exists y; left; reflexivity|].
  destruct (IH H) as (b & Hb). exists b. right. exact Hb.
Qed.

(** The order in which modules ask does not matter. *)
Theorem C87_order : forall qs qs' its l,
  clear_for qs its -> distinct its -> NoDup (map fst qs) -> Permutation qs qs' ->
  holds l (written its) ->
  map string_of (snd (ask qs l)) = map string_of (snd (ask qs' l)) /\
  (forall q a, In (q, a) (combine qs (fst (ask qs l))) <->
               In (q, a) (combine qs' (fst (ask qs' l)))).
Proof.
  intros qs qs' its l C D ND P H.
  destruct (ask_all qs its l C D ND H) as (r & L & (_ & HR) & F).
  assert (ND' : NoDup (map fst qs')) by (eapply Permutation_NoDup; [apply Permutation_map; exact P|exact ND]).
  destruct (ask_all qs' its l (perm_clear _ _ _ P C) D ND' H) as (r' & L' & (_ & HR') & F').
  assert (r = r').
  { apply (left_unique qs qs' its); [|exact L|exact L'].
    intros q. split; apply Permutation_in; [exact P|symmetry; exact P]. }
  subst r'. split; [congruence|]. intros q a.
  assert (G : forall p p' as_ as', Permutation p p' ->
    Forall2 (fun q a => right_answer its (fst q) a) p as_ ->
    Forall2 (fun q a => right_answer its (fst q) a) p' as' ->
    In (q, a) (combine p as_) -> In (q, a) (combine p' as')).
  { intros p p' as_ as' PP Fp Fp' I.
    destruct (forall2_get _ _ _ q Fp') as (b & Ib).
    - eapply Permutation_in; [exact PP|]. exact (in_combine_l _ _ _ _ I).
    - pose proof (forall2_in _ _ _ _ _ Fp I) as Ra. pose proof (forall2_in _ _ _ _ _ Fp' Ib) as Rb.
      rewrite (right_unique its (fst q) a b D Ra Rb). exact Ib. }
  split; [apply G; assumption|apply G; [symmetry; exact P|assumption|assumption]].
Qed.
Print Assumptions C87_order.

(** Asking again and again gives the values of an option in their order, and
    then nothing; the other words stay. *)
Theorem C87_repeat : forall q w n its l,
  clear_for [(q, w)] its -> holds l (written its) ->
  fst (ask (repeat (q, w) n) l) =
    firstn n (map reply (filter (named q) its) ++ repeat Absent n) /\
  ((length (filter (named q) its) <= n)%nat ->
   holds (snd (ask (repeat (q, w) n) l)) (written (filter (others q) its))).
Proof. exact ask_again. Qed.
Print Assumptions C87_repeat.

(** A line: -f x --num=3 --debug --file a y *)
Definition o_num : str := [45; 45; 110; 117; 109].
Definition o_file : str := [45; 45; 102; 105; 108; 101].
Definition line : list item :=
  [IWord w_f; IWord [120]; IEq o_num [51]; IFlag w_debug; ISp o_file [97]; IWord [121]].
Definition asked : list (str * bool) := [(o_file, true); (w_debug, false); (w_batch, false); (o_num, true)].

Ltac unlike := intros [E|(v & E)]; revert E; vm_compute; intros E; discriminate.
Ltac each H := repeat (destruct H as [H|H]; [|]); try (match type of H with False => destruct H end).

Definition names (its : list item) : list str :=
  flat_map (fun i => match name i with Some o => [o] | None => [] end) its.
Lemma distinct_names its : NoDup (names its) -> distinct its.
Proof.
  intros ND pre i mid j post o -> Ni Nj. unfold names in ND.
  rewrite flat_map_app in ND. cbn [flat_map] in ND. rewrite flat_map_app in ND. cbn [flat_map] in ND.
  rewrite Ni, Nj in ND. cbn [app] in ND. apply NoDup_remove_2 in ND. apply ND.
  apply in_or_app. right. apply in_or_app. right. left. reflexivity.
Qed.
Ltac nodup := vm_compute; repeat constructor; cbn [In]; intros H;
  repeat (destruct H as [H|H]; [discriminate|]); destruct H.

Lemma line_clear : clear_for asked line /\ distinct line.
Proof.
  split.
  - split; [intros q w H; unfold asked in H; cbn [In] in H;
      each H; injection H as <- <-; split; intros I; vm_compute in I; each I; discriminate|].
    split; [intros i o H; unfold line in H; cbn [In] in H;
      each H; subst i; cbn [name]; intros E; try discriminate; injection E as <-;
      intros I; vm_compute in I; each I; discriminate|].
    split; [intros s H; vm_compute in H; each H; subst s; intros I; cbn [In] in I; each I; discriminate|].
    split; [intros i o w H N Q; unfold line, asked in *; cbn [In] in H, Q;
      each H; subst i; cbn [name] in N; try discriminate; injection N as <-;
      each Q; try (exfalso; revert Q; vm_compute; discriminate); injection Q as <-; reflexivity|].
    split; [intros o v q w H Q; unfold line, asked in *; cbn [In] in H, Q;
      each H; try discriminate; injection H as <- <-;
      each Q; injection Q as <- <-; unlike|].
    intros s q w H Q; unfold line, asked in *; cbn [In] in H, Q;
      each H; try discriminate; injection H as <-;
      each Q; injection Q as <- <-; unlike.
  - apply distinct_names. nodup.
Qed.

Example line_asked :
  ask asked (number 0 (written line)) =
  ([Arg [97]; Given; Absent; Arg [51]], [Str 0 w_f; Str 1 [120]; Str 6 [121]]).
Proof. vm_compute. reflexivity. Qed.
Example line_holds : holds (number 0 (written line)) (written line).
Proof. apply number_holds. Qed.

(** ** The actions *)

(** Functions are called and files loaded in the order of the line, each
    seeing exactly the words after its own, and then --quit, if it is there,
    leaves without a look at what follows. *)
Theorem C87_actions : forall world acts,
  (forall a r, leaves a = false -> world a r = Some r) -> Forall act_ok acts ->
  (forall tr o, parse world (flat_map act_words acts) tr o <->
     (tr = course acts [] /\ o = Finished)) /\
  (forall more tr o, parse world (flat_map act_words acts ++ w_quit :: more) tr o <->
     (tr = course acts (w_quit :: more) ++ [(Quit, more)] /\ o = Left_ok)).
Proof.
  intros world acts W F. split.
  - assert (P : parse world (flat_map act_words acts) (course acts []) Finished).
    { pose proof (parse_acts world [] [] Finished W (parse_end world) acts F) as P.
      rewrite !app_nil_r in P. exact P. }
    intros tr o. split; [intros Q; exact (parse_det _ _ _ _ P _ _ Q)|intros (-> & ->); exact P].
  - intros more tr o.
    assert (P0 : parse world (w_quit :: more) [(Quit, more)] Left_ok)
      by (apply parse_leave; vm_compute; reflexivity).
    pose proof (parse_acts world (w_quit :: more) _ _ W P0 acts F) as P.
    split; [intros Q; exact (parse_det _ _ _ _ P _ _ Q)|intros (-> & ->); exact P].
Qed.
Print Assumptions C87_actions.

(** A script may take all the words after its name: nothing else is done. *)
Theorem C87_script_words : forall world f rest, act_ok (AScript f) ->
  world (Script f) rest = Some [] ->
  forall tr o, parse world (f :: rest) tr o <-> (tr = [(Script f, rest)] /\ o = Finished).
Proof.
  intros world f rest A W tr o.
  destruct (next_act (AScript f) rest A) as (arg & r & E & N).
  cbn [act_words app act_action] in E, N. injection E as <- <-.
  assert (P : parse world (f :: rest) [(Script f, rest)] Finished)
    by (eapply parse_step; [exact N|reflexivity|exact W|apply parse_end]).
  split; [intros Q; exact (parse_det _ _ _ _ P _ _ Q)|intros (-> & ->); exact P].
Qed.
Print Assumptions C87_script_words.

(** An error in the code run ends everything: no later action is done. *)
Theorem C87_error_stops : forall world acts a more,
  (forall b r, In b acts -> world (act_action b) r = Some r) ->
  Forall act_ok acts -> act_ok a -> world (act_action a) more = None ->
  forall tr o, parse world (flat_map act_words acts ++ act_words a ++ more) tr o ->
    tr = course acts (act_words a ++ more) ++ [(act_action a, more)] /\ o = Failed.
Proof.
  intros world acts a more W F A E tr o.
  assert (P : parse world (flat_map act_words acts ++ act_words a ++ more)
    (course acts (act_words a ++ more) ++ [(act_action a, more)]) Failed).
  { induction F as [|b acts B F IH].
    - cbn [flat_map course app]. destruct (next_act a more A) as (arg & r & Ea & N). rewrite Ea.
      apply parse_error; [exact N|destruct a as [[]|[]|]; reflexivity|exact E].
    - cbn [flat_map course app]. rewrite <- app_assoc.
      destruct (next_act b (flat_map act_words acts ++ act_words a ++ more) B) as (arg & r & Eb & N).
      rewrite Eb. eapply parse_step; [exact N|destruct b as [[]|[]|]; reflexivity|apply W; left; reflexivity|].
      apply IH. intros c r' Hc. apply W. right. exact Hc. }
  intros Q. exact (parse_det _ _ _ _ P _ _ Q).
Qed.
Print Assumptions C87_error_stops.

(** The flags of the start may stand anywhere between the actions. *)
Theorem C87_startup : forall world its rest acts,
  (forall a r, leaves a = false -> world a r = Some r) -> Forall act_ok acts ->
  clear_for startup its -> distinct its ->
  left_over startup its rest -> written rest = flat_map act_words acts ->
  exists flags, Forall2 (fun q a => right_answer its (fst q) a) startup flags /\
  forall flags' tr o, run world (written its) flags' tr o <->
    (flags' = flags /\ tr = course acts [] /\ o = Finished).
Proof.
  intros world its rest acts W F C D L E.
  assert (ND : NoDup (map fst startup)).
  { vm_compute. repeat constructor; cbn [In]; intros H;
      repeat (destruct H as [H|H]; [discriminate|]); destruct H. }
  destruct (ask_all startup its (number 0 (written its)) C D ND (number_holds _)) as (r & L' & H & FA).
  rewrite (left_unique startup startup its (fun q => conj (fun x => x) (fun x => x)) _ _ L' L) in H.
  exists (fst (ask startup (number 0 (written its)))). split; [exact FA|].
  intros flags' tr o. unfold run. rewrite (holds_strings _ _ H), E.
  destruct (C87_actions world acts W F) as [P _]. rewrite P. tauto.
Qed.
Print Assumptions C87_startup.

(** A line: --batch -l a --no-rc s --call f --debug *)
Definition started : list item :=
  [IFlag w_batch; IWord w_l; IWord [97]; IFlag w_norc; IWord [115]; IWord w_call; IWord [102]; IFlag w_debug].
Definition started_rest : list item :=
  [IWord w_l; IWord [97]; IWord [115]; IWord w_call; IWord [102]].
Definition started_acts : list act_item := [ALoad false [97]; AScript [115]; ACall true [102]].

Lemma started_ok : clear_for startup started /\ distinct started /\ left_over startup started started_rest.
Proof.
  split; [|split].
  - split; [intros q w H; unfold startup in H; cbn [In] in H;
      each H; injection H as <- <-; split; intros I; vm_compute in I; each I; discriminate|].
    split; [intros i o H; unfold started in H; cbn [In] in H;
      each H; subst i; cbn [name]; intros E; try discriminate; injection E as <-;
      intros I; vm_compute in I; each I; discriminate|].
    split; [intros s H; vm_compute in H; each H; subst s; intros I; cbn [In] in I; each I; discriminate|].
    split; [intros i o w H N Q; unfold started, startup in *; cbn [In] in H, Q;
      each H; subst i; cbn [name] in N; try discriminate; injection N as <-;
      each Q; try (exfalso; revert Q; vm_compute; discriminate); injection Q as <-; reflexivity|].
    split; [intros o v q w H Q; unfold started in *; cbn [In] in H;
      each H; discriminate|].
    intros s q w H Q; unfold started, startup in *; cbn [In] in H, Q;
      each H; try discriminate; injection H as <-;
      each Q; injection Q as <- <-; unlike.
  - apply distinct_names. nodup.
  - unfold started, started_rest, startup.
    repeat first [ apply left_nil
                 | eapply left_taken; [reflexivity|cbn [In]; tauto|]
                 | apply left_kept; [intros o w N; discriminate|] ].
Qed.
Example started_course :
  Forall act_ok started_acts /\ written started_rest = flat_map act_words started_acts /\
  course started_acts [] =
    [(Load [97], [[115]; w_call; [102]]); (Script [115], [w_call; [102]]); (Call [102], [])].
Proof.
  split; [repeat constructor; vm_compute; intros H;
      repeat (destruct H as [H|H]; [discriminate|]); destruct H|].
  split; reflexivity.
Qed.

(** ** What does not hold *)

(** --batch=no turns batch mode on: the value of a flag is not looked at. *)
Theorem C87_flag_value_refuted : exists v l,
  l = number 0 [w_batch ++ [61] ++ v] /\ v <> [] /\ get_option w_batch false l = (Given, []).
Proof. exists [110; 111], (number 0 [w_batch ++ [61; 110; 111]]). repeat split; discriminate. Qed.
Print Assumptions C87_flag_value_refuted.

(** A value that looks like another option: the answers depend on who asks
    first. *)
Theorem C87_steal_refuted : exists l qs qs', Permutation qs qs' /\
  NoDup (map fst qs) /\ holds l [o_num; w_debug] /\
  fst (ask qs l) = [Arg w_debug; Absent] /\ fst (ask qs' l) = [Given; NoArg].
Proof.
  exists (number 0 [o_num; w_debug]), [(o_num, true); (w_debug, false)], [(w_debug, false); (o_num, true)].
  split; [apply perm_swap|]. split.
  { vm_compute. repeat constructor; cbn [In]; intros H;
      repeat (destruct H as [H|H]; [discriminate|]); destruct H. }
  split; [apply number_holds|]. split; reflexivity.
Qed.
Print Assumptions C87_steal_refuted.

(** A missing argument is an error once; the option is gone the second time. *)
Theorem C87_missing_refuted : exists l, holds l [o_num] /\
  fst (ask [(o_num, true); (o_num, true)] l) = [NoArg; Absent].
Proof. exists (number 0 [o_num]). split; [apply number_holds|reflexivity]. Qed.
Print Assumptions C87_missing_refuted.

(** One string object that stands in the list twice is removed twice. *)
Theorem C87_shared_refuted : exists l, map string_of l = map Some [w_debug; [97]; w_debug] /\
  fst (ask [(w_debug, false); (w_debug, false)] l) = [Given; Absent].
Proof. exists [Str 0 w_debug; Str 1 [97]; Str 0 w_debug]. split; reflexivity. Qed.
Print Assumptions C87_shared_refuted.

(** A script does not see those of its words that are flags of the start. *)
Theorem C87_swallowed_refuted : exists f w rest world,
  In (w, false) startup /\ (forall a r, world a r = Some []) /\
  run world (f :: w :: rest) [Absent; Absent; Absent; Given] [(Script f, rest)] Finished.
Proof.
  exists [115], w_debug, [[120]], (fun _ _ => Some []).
  split; [cbn [startup In]; auto|]. split; [reflexivity|]. split; [reflexivity|].
  change (strings (snd (ask startup (number 0 [[115]; w_debug; [120]])))) with [[115]; [120]].
  eapply parse_step; [vm_compute; reflexivity|reflexivity|reflexivity|apply parse_end].
Qed.
Print Assumptions C87_swallowed_refuted.
