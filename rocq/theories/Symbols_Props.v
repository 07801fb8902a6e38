(** Theorems about symbols: C56 obarrays, C57 property lists, C58 keywords and
    generated symbols. *)
From Coq Require Import ZArith List Bool Lia Arith.
From Verif Require Import Numbers_Model Values_Model Symbols_Model Symbols_Spec Symbols_Proofs Symbols_More Symbols_Plist.
Import ListNotations.
Open Scope Z_scope.

(** Two names: "a" and "b". *)
Definition a : list Z := [97].
Definition b : list Z := [98].

(** ** C56 *)

(** Any sequence of careful calls is answered as by a set of symbols with
    different names. *)
Theorem C56_agrees_partial : forall l, careful_all wstart l ->
  fst (exec_all start l) = fst (step_all wstart l).
Proof. intros l H. exact (agrees_all l start wstart _ inv_start H). Qed.
Print Assumptions C56_agrees_partial.

Definition session : list op :=
  [MakeString a; MakeString b; MakeString a; MakeObarray 3;
   Intern 0 None; Intern 1 None; Intern 2 None; FindSymbol 2 (Some 2%nat); Intern 2 (Some 2%nat);
   Unintern 0 None; FindSymbol 0 None; FindSymbol 1 None; InternSymbol 0 (Some 2%nat);
   SetObarray 2; FindSymbol 0 None; MakeKeyword 1; MakeKeyword 1].
Example session_careful : careful_all wstart (firstn 12 session).
Proof.
  vm_compute. repeat split; try lia; auto; try (right; reflexivity); intros; discriminate.
Qed.
Example session_answers : fst (exec_all start session) =
  [Ret (VStr 0); Ret (VStr 1); Ret (VStr 2); Ret (VOb 2);
   Ret (VSym 0); Ret (VSym 1); Ret (VSym 0); Ret VNil; Ret (VSym 2);
   Ret (VSym 0); Ret VNil; Ret (VSym 1); Ret (VSym 0);
   Ret (VOb 2); Ret (VSym 0); Ret (VSym 3); Ret (VSym 3)].
Proof. vm_compute. reflexivity. Qed.

(** intern answers a symbol of the name asked for, the same one each time,
    and find-symbol then finds it. *)
Theorem C56_intern_found_partial : forall st w n ob, reached st w -> ok_str w n -> has_room w ob ->
  exists s st', intern st n ob = (Ret (VSym s), st') /\
    find_symbol st' n ob = Ret (VSym s) /\
    intern st' n ob = (Ret (VSym s), st') /\
    text (bytes st' (sname (get_sym st' s))) = text (bytes st n).
Proof.
  intros st w n ob H1 H2 H3. destruct (intern_found st w n ob H1 H2 H3) as (s & st' & A & B & C & D & _).
  exists s, st'. auto.
Qed.
Print Assumptions C56_intern_found_partial.

(** Two names give one symbol exactly when they are the same text. *)
Theorem C56_intern_distinct_partial : forall st w n1 n2 ob s1 s2 st1 st2, reached st w ->
  ok_str w n1 -> ok_str w n2 -> has_room w ob ->
  intern st n1 ob = (Ret (VSym s1), st1) -> intern st1 n2 ob = (Ret (VSym s2), st2) ->
  (s1 = s2 <-> text (bytes st n1) = text (bytes st n2)).
Proof. exact intern_distinct. Qed.
Print Assumptions C56_intern_distinct_partial.

(** intern changes no other look-up, in its obarray or any other. *)
Theorem C56_intern_keeps_partial : forall st w n ob s st' n' ob', reached st w -> ok_str w n -> has_room w ob ->
  intern st n ob = (Ret (VSym s), st') ->
  which st ob' <> which st ob \/ text (bytes st n') <> text (bytes st n) ->
  find_symbol st' n' ob' = find_symbol st n' ob'.
Proof.
  intros st w n ob s st' n' ob' HR H1 H2 E HN.
  rewrite (intern_keeps st w n ob s st' n' ob' HR H1 H2 E).
  destruct (Nat.eq_dec (which st ob') (which st ob)); [|reflexivity].
  destruct (list_eq_dec Z.eq_dec (text (bytes st n')) (text (bytes st n))); [|reflexivity].
  destruct HN; contradiction.
Qed.
Print Assumptions C56_intern_keeps_partial.

(** unintern takes the symbol out and nothing else. *)
Theorem C56_unintern_partial : forall st w s ob, reached st w -> ok_sym w s -> has_room w ob ->
  wholder (wsym w s) = None \/ wholder (wsym w s) = Some (wwhich w ob) ->
  exists st', unintern st s ob = (Ret (VSym s), st') /\
    forall n ob',
      find_symbol st' n ob' <> Ret (VSym s) /\
      (find_symbol st n ob' <> Ret (VSym s) -> find_symbol st' n ob' = find_symbol st n ob') /\
      (find_symbol st n ob' = Ret (VSym s) -> find_symbol st' n ob' = Ret VNil).
Proof.
  intros st w s ob H1 H2 H3 H4. destruct (unintern_effect st w s ob H1 H2 H3 H4) as (st' & E & _ & F).
  exists st'. split; [exact E|]. intros n ob'. rewrite F.
  destruct (find_symbol st n ob') as [[|x| | |]| | | |] eqn:Q; repeat split; intros; try discriminate; try congruence;
    destruct (Nat.eq_dec x s); congruence.
Qed.
Print Assumptions C56_unintern_partial.

(** apropos lists each matching symbol of the obarray once, and no other. *)
Theorem C56_apropos_partial : forall st w p ob, reached st w -> ok_ob w ob ->
  exists l, apropos st p ob = Ret (VList l) /\ NoDup l /\
    forall s, In s l <->
      ok_sym w s /\ wholder (wsym w s) = Some (wwhich w ob) /\ p (wtext w s) = true.
Proof. exact apropos_spec. Qed.
Print Assumptions C56_apropos_partial.

Example apropos_ex :
  let st := snd (exec_all start (firstn 6 session)) in
  apropos st (fun t => match t with [] => false | _ => true end) None = Ret (VList [1%nat; 0%nat]).
Proof. vm_compute. reflexivity. Qed.

(** Taking a symbol out of an obarray it is not in breaks the obarray it is
    in: the next look-up there reads through a null pointer. *)
Theorem C56_unintern_elsewhere_refuted : exists l,
  fst (exec_all start l) =
  [Ret (VOb 2); Ret (VStr 0); Ret (VStr 1); Ret (VSym 0); Ret (VSym 1); Ret (VSym 1); Crash] /\
  l = [MakeObarray 1; MakeString a; MakeString b;
       Intern 0 (Some 2%nat); Intern 1 (Some 2%nat); Unintern 1 None; FindSymbol 0 (Some 2%nat)].
Proof. eexists. split; [|reflexivity]. vm_compute. reflexivity. Qed.
Print Assumptions C56_unintern_elsewhere_refuted.

(** Interned again it makes a chain that never ends. *)
Theorem C56_unintern_loop_refuted : exists l,
  Forall (fun r => exists v, r = Ret v) (fst (exec_all start l)) /\
  let st := snd (exec_all start l) in
  find_symbol st 0 (Some 2%nat) = Hang /\
  forall n, find_chain n st (bytes st 0) (nth (hashid (bytes st 0) 1) (buckets st 2) End) = Hang.
Proof.
  exists [MakeObarray 1; MakeString a; MakeString b;
       Intern 0 (Some 2%nat); Intern 1 (Some 2%nat); Unintern 1 None; InternSymbol 1 (Some 2%nat)].
  split; [vm_compute; repeat constructor; eauto|]. split; [vm_compute; reflexivity|].
  intros n.
  set (st := snd (exec_all start _)).
  assert (E : nth (hashid (bytes st 0) 1) (buckets st 2) End = Sym 1) by (vm_compute; reflexivity).
  rewrite E. induction n as [|n IH]; [reflexivity|]. cbn [find_chain].
  assert (C : strcmp0 (bytes st 0) (bytes st (sname (get_sym st 1))) = false) by (vm_compute; reflexivity).
  assert (X : snext (get_sym st 1) = Sym 1) by (vm_compute; reflexivity).
  rewrite C, X. exact IH.
Qed.
Print Assumptions C56_unintern_loop_refuted.

(** With two symbols of one name in an obarray the newer is found; taking out
    an unrelated symbol makes the older one found instead. *)
Theorem C56_unintern_order_refuted : exists l,
  l = [MakeObarray 1; MakeString a; MakeString b; Intern 0 (Some 2%nat); Intern 1 (Some 2%nat);
       MakeSymbol 0; InternSymbol 2 (Some 2%nat);
       FindSymbol 0 (Some 2%nat); Unintern 1 (Some 2%nat); FindSymbol 0 (Some 2%nat)] /\
  skipn 7 (fst (exec_all start l)) = [Ret (VSym 2); Ret (VSym 1); Ret (VSym 0)].
Proof. eexists. split; [reflexivity|]. vm_compute. reflexivity. Qed.
Print Assumptions C56_unintern_order_refuted.

(** Names with a zero byte: two different strings intern as one symbol. *)
Theorem C56_null_refuted : exists l s n,
  l = [MakeString [97; 0; 98]; MakeString a; Intern 0 None; Intern 1 None; SymbolName s] /\
  skipn 2 (fst (exec_all start l)) = [Ret (VSym s); Ret (VSym s); Ret (VStr n)] /\
  bytes (snd (exec_all start l)) n <> a.
Proof. eexists. exists 0%nat, 0%nat. split; [reflexivity|]. split; vm_compute; [reflexivity|discriminate]. Qed.
Print Assumptions C56_null_refuted.

(** The symbol keeps the string given to intern, not a copy: after a write
    into it the symbol is found neither under its old nor under its new
    name. *)
Theorem C56_written_name_refuted : exists l,
  l = [MakeString a; Intern 0 None; Aset 0 0 98; MakeString a; MakeString b;
       FindSymbol 1 None; FindSymbol 2 None] /\
  skipn 5 (fst (exec_all start l)) = [Ret VNil; Ret VNil] /\
  bytes (snd (exec_all start l)) (sname (get_sym (snd (exec_all start l)) 0)) = b.
Proof. eexists. split; [reflexivity|]. split; vm_compute; reflexivity. Qed.
Print Assumptions C56_written_name_refuted.

(** intern in an obarray of size zero answers nothing, and no error is
    signalled. *)
Theorem C56_size_zero_refuted : exists l,
  l = [MakeObarray 0; MakeString a; Intern 0 (Some 2%nat)] /\
  fst (exec_all start l) = [Ret (VOb 2); Ret (VStr 0); NoResult].
Proof. eexists. split; [reflexivity|]. vm_compute. reflexivity. Qed.
Print Assumptions C56_size_zero_refuted.

(** ** C57 *)

(** After put, get answers the value for that property and is unchanged for
    all others, whatever the property list was before. *)
Theorem C57_put_get_partial : forall cls allowed ps s p v l,
  listed ps (plists ps s) l -> allowed s = true ->
  exists ps', put cls allowed ps s p v = (PRet v, ps') /\
    forall q, (same_prop cls p q -> get cls ps' s q = PRet v) /\
              (~ same_prop cls p q -> get cls ps' s q = get cls ps s q).
Proof.
  intros cls allowed ps s p v l H HA.
  destruct (put_get cls allowed ps s p v l H HA) as (ps' & E & G). exists ps'. split; [exact E|].
  intros q. rewrite G. destruct (same_prop_dec cls p q); tauto.
Qed.
Print Assumptions C57_put_get_partial.

(** A property list that is there already: ((obj 4) val1 sym7 val2). *)
Definition plist_ex : pstate :=
  MkP [(PObj 4, PCell 1); (PSym 1, PCell 2); (PSym 7, PCell 3); (PSym 2, PNil)]
      (fun s => if (s =? 9)%nat then PCell 0 else PNil).
Example listed_ex : listed plist_ex (plists plist_ex 9) [0; 1; 2; 3]%nat.
Proof. repeat (constructor; [cbn; lia|]). constructor. intros c. discriminate. Qed.
(** Objects 4 and 14 are equal: the value is written over. *)
Example put_ex : let ps' := snd (put (fun i => (i mod 10)%nat) (fun _ => true) plist_ex 9 (PObj 14) (PSym 3)) in
  get (fun i => (i mod 10)%nat) ps' 9 (PObj 4) = PRet (PSym 3) /\
  get (fun i => (i mod 10)%nat) ps' 9 (PSym 7) = PRet (PSym 2) /\
  length (cells ps') = 4%nat.
Proof. vm_compute. auto. Qed.

(** put on one symbol leaves the others alone, if their lists have no cell in
    common. *)
Theorem C57_put_other_partial : forall cls allowed ps s p v l s' l',
  listed ps (plists ps s) l -> listed ps (plists ps s') l' ->
  (forall c, In c l -> In c l' -> False) -> allowed s = true -> s' <> s ->
  exists ps', put cls allowed ps s p v = (PRet v, ps') /\ forall q, get cls ps' s' q = get cls ps s' q.
Proof. exact put_other. Qed.
Print Assumptions C57_put_other_partial.

(** setplist with the list of another symbol: put on one is then seen by
    both. *)
Theorem C57_shared_refuted : exists ps s s' p v,
  s <> s' /\
  let ps1 := snd (setplist (fun _ => true) ps s' (plists ps s)) in
  let ps2 := snd (put (fun i => i) (fun _ => true) ps1 s p v) in
  get (fun i => i) ps1 s' p <> PRet v /\ get (fun i => i) ps2 s' p = PRet v.
Proof.
  exists plist_ex, 9%nat, 8%nat, (PSym 7), (PSym 5). split; [discriminate|].
  split; vm_compute; [discriminate|reflexivity].
Qed.
Print Assumptions C57_shared_refuted.

(** A program that only uses put: get answers the newest value put for that
    symbol and property, nil when there is none. *)
Theorem C57_history : forall cls l s p v,
  get cls (puts cls l) s p = PRet v <-> newest cls l s p v.
Proof.
  intros cls l s p v. destruct (history cls l s p) as (v0 & N & G). rewrite G. split.
  - intros E. injection E as <-. exact N.
  - intros N'. f_equal. eapply newest_one; eauto.
Qed.
Print Assumptions C57_history.

Example history_ex : let l := [(1%nat, PSym 3, PObj 8); (2%nat, PSym 3, PObj 9); (1%nat, PSym 4, PObj 7); (1%nat, PSym 3, PObj 6)] in
  get (fun i => i) (puts (fun i => i) l) 1 (PSym 3) = PRet (PObj 8) /\
  get (fun i => i) (puts (fun i => i) l) 1 (PSym 4) = PRet (PObj 7) /\
  get (fun i => i) (puts (fun i => i) l) 2 (PSym 4) = PRet PNil.
Proof. vm_compute. auto. Qed.

(** In a restricted special environment put, setplist and symbol-plist are
    errors that change nothing. *)
Theorem C57_restricted : forall cls allowed ps s, allowed s = false ->
  (forall p v, put cls allowed ps s p v = (PSignal, ps)) /\
  (forall l, setplist allowed ps s l = (PSignal, ps)) /\
  symbol_plist allowed ps s = PSignal.
Proof. intros cls allowed ps s H. unfold put, setplist, symbol_plist. rewrite H. auto. Qed.
Print Assumptions C57_restricted.

(** But get still reads the list that symbol-plist refuses to give. *)
Theorem C57_restricted_refuted : exists cls allowed ps s p v,
  symbol_plist allowed ps s = PSignal /\ get cls ps s p = PRet v /\ v <> PNil.
Proof.
  exists (fun i => i), (fun _ => false), plist_ex, 9%nat, (PSym 7), (PSym 2).
  repeat split; try (vm_compute; reflexivity). discriminate.
Qed.
Print Assumptions C57_restricted_refuted.

(** ** C58 *)

(** make-keyword answers a keyword named "#:" and the name. *)
Theorem C58_keyword_partial : forall st w s, reached st w -> ok_sym w s -> keywordp st s = false ->
  exists k st', make_keyword st s = (Ret (VSym k), st') /\ keywordp st' k = true /\
    text (bytes st' (sname (get_sym st' k))) = 35 :: 58 :: text (bytes st (sname (get_sym st s))).
Proof.
  intros st w s H1 H2 H3. destruct (keyword_effect st w s H1 H2 H3) as (k & st' & A & B & C & _).
  exists k, st'. split; [exact A|]. split; [exact B|]. rewrite C. reflexivity.
Qed.
Print Assumptions C58_keyword_partial.

(** Two symbols have the same keyword exactly when they have the same name. *)
Theorem C58_keyword_distinct_partial : forall st w s1 s2 k1 k2 st1 st2, reached st w -> ok_sym w s1 -> ok_sym w s2 ->
  make_keyword st s1 = (Ret (VSym k1), st1) -> make_keyword st1 s2 = (Ret (VSym k2), st2) ->
  (k1 = k2 <-> text (bytes st (sname (get_sym st s1))) = text (bytes st (sname (get_sym st s2)))).
Proof. exact keyword_distinct. Qed.
Print Assumptions C58_keyword_distinct_partial.

Example keyword_ex :
  let r := exec_all start [MakeString a; MakeString b; MakeSymbol 0; Intern 0 None; Intern 1 None;
                           MakeKeyword 0; MakeKeyword 1; MakeKeyword 2; MakeKeyword 3] in
  skipn 5 (fst r) = [Ret (VSym 3); Ret (VSym 3); Ret (VSym 4); Signal] /\
  bytes (snd r) (sname (get_sym (snd r) 4)) = [35; 58; 98].
Proof. vm_compute. auto. Qed.

(** A keyword is not in the default obarray, so (unintern '#:foo) breaks the
    obarray of keywords: some later keyword reads through a null pointer. *)
Theorem C58_keyword_unintern_refuted : exists l,
  l = [MakeString [102; 111; 111]; MakeString [121]; MakeSymbol 0; MakeSymbol 1;
       MakeKeyword 0; Unintern 2 None; MakeKeyword 1] /\
  skipn 4 (fst (exec_all start l)) = [Ret (VSym 2); Ret (VSym 2); Crash].
Proof. eexists. split; [reflexivity|]. vm_compute. reflexivity. Qed.
Print Assumptions C58_keyword_unintern_refuted.

(** The first 2147483647 generated symbols have different names. *)
Theorem C58_gensym_partial : forall k, Z.of_nat k <= 2 ^ 31 - 1 -> NoDup (gensyms k 0).
Proof. intros k H. apply gensyms_nodup; lia. Qed.
Print Assumptions C58_gensym_partial.

Example gensym_ex : gensyms 2 9998 = [[71; 57; 57; 57; 57]; [71; 49; 48; 48; 48; 48]].
Proof. vm_compute. reflexivity. Qed.

(** The name is not unique among all symbols: one that was interned before
    can have it. *)
Theorem C58_gensym_refuted : exists l s,
  fst (exec_all start l) = [Ret (VStr 0); Ret (VSym s)] /\
  bytes (snd (exec_all start l)) (sname (get_sym (snd (exec_all start l)) s)) = fst (gensym 0).
Proof. exists [MakeString [71; 48; 48; 48; 49]; Intern 0 None], 0%nat. split; vm_compute; reflexivity. Qed.
Print Assumptions C58_gensym_refuted.
