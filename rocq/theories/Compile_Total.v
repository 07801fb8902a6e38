(** The compiler accepts every plain program of the right shape. *)
From Coq Require Import List Arith Bool ZArith Lia ZifyBool.
From Verif Require Import Compile_Model Compile_Spec Compile_Proofs.
Import ListNotations.
Open Scope Z_scope.

(** * What is emitted can be allocated *)
Inductive iok : list (var * nat) -> item -> Prop :=
| iok_lbl b l : iok b (ILbl l)
| iok_jump b k l : iok b (IJ k l)
| iok_ins b i : iok b (II i)
| iok_bind b x og c : assoc x og = Some c -> iok b (ILexBind x (og ++ b))
| iok_ref b x og c : assoc x (og ++ b) = Some c -> iok b (ILexRef x (og ++ b))
| iok_set b x og c : assoc x (og ++ b) = Some c -> iok b (ILexSet x (og ++ b))
| iok_byte b og cd ms mb : Forall (iok (og ++ b)) cd -> iok b (IBytecode (Asm cd ms mb) (og ++ b)).

Lemma assoc_app' {A} x (a b : list (nat * A)) :
  assoc x (a ++ b) = match assoc x a with Some v => Some v | None => assoc x b end.
Proof. induction a as [|[y v] a IH]; cbn; [reflexivity|]. now destruct (Nat.eqb x y). Qed.

Section Alloc.
Variable heap : nat -> bool.
Lemma heap_address_some x env : forall c, assoc x env = Some c -> heap c = true ->
  exists n, heap_address heap x env = Some n.
Proof.
  induction env as [|[y d] env IH]; intros c; cbn; [discriminate|]. destruct (Nat.eqb x y).
  - intros [= <-] ->. now exists O.
  - intros E H. destruct (IH _ E H) as [n ->]. destruct (heap d); eauto.
Qed.
Lemma slot_from_some x og base : forall c, assoc x og = Some c ->
  exists n, slot_address_from heap x (og ++ base) (length og) = Some n.
Proof.
  induction og as [|[y d] og IH]; intros c; cbn; [discriminate|].
  destruct (Nat.eqb x y); eauto.
Qed.
Lemma slot_some x og base c : assoc x og = Some c ->
  exists n, slot_address heap x (og ++ base) base = Some n.
Proof.
  intros H. unfold slot_address. rewrite app_length.
  replace (length og + length base - length base)%nat with (length og) by lia.
  eapply slot_from_some. exact H.
Qed.
(** a variable of an enclosing function is on the heap *)
Definition lexok (b : list (var * nat)) (i : item) : Prop :=
  (forall c, In c (refs b [i]) -> heap c = true) /\ (forall c, In c (captured_item i) -> heap c = true).

Lemma refs_cons b i l c : In c (refs b (i :: l)) <-> In c (refs b [i]) \/ In c (refs b l).
Proof. unfold refs. cbn [flat_map]. rewrite app_nil_r. apply in_app_iff. Qed.

Lemma place_some x og base c :
  assoc x (og ++ base) = Some c -> (forall c, assoc x base = Some c -> heap c = true) ->
  heap c = true \/ exists n, slot_address heap x (og ++ base) base = Some n.
Proof.
  intros H R. rewrite assoc_app' in H. destruct (assoc x og) as [d|] eqn:E.
  - right. eapply slot_some. exact E.
  - left. apply R. exact H.
Qed.

Lemma alloc_item_some : forall b i, iok b i -> lexok b i ->
  exists m n, alloc_item heap b i = Some (m, n).
Proof.
  fix IH 3. intros b i H. destruct H as [b l|b k l|b i|b x og c E|b x og c E|b x og c E|b og cd ms mb F];
    intros [L1 L2]; try (do 2 eexists; reflexivity).
  - cbn. rewrite assoc_app', E. destruct (heap c); [do 2 eexists; reflexivity|].
    destruct (slot_some x og b c E) as [n ->]. do 2 eexists; reflexivity.
  - cbn. rewrite E. destruct (heap c) eqn:Hc.
    + destruct (heap_address_some _ _ _ E Hc) as [n ->]. do 2 eexists; reflexivity.
    + destruct (place_some x og b c E) as [X|[n ->]]; [|congruence|do 2 eexists; reflexivity].
      intros d D. apply L1. cbn. rewrite D. now left.
  - cbn. rewrite E. destruct (heap c) eqn:Hc.
    + destruct (heap_address_some _ _ _ E Hc) as [n ->]. do 2 eexists; reflexivity.
    + destruct (place_some x og b c E) as [X|[n ->]]; [|congruence|do 2 eexists; reflexivity].
      intros d D. apply L1. cbn. rewrite D. now left.
  - cbn [alloc_item].
    assert (X : exists mc sl, alloc_list (alloc_item heap (og ++ b)) cd = Some (mc, sl)).
    { assert (R1 : forall c, In c (refs (og ++ b) cd) -> heap c = true)
        by (intros c I; apply L2; cbn; apply in_or_app; now left).
      assert (R2 : forall c, In c (flat_map captured_item cd) -> heap c = true)
        by (intros c I; apply L2; cbn; apply in_or_app; now right).
      clear L1 L2. revert cd F R1 R2. fix go 2. intros cd F. destruct F as [|i cd Hi Hc]; intros R1 R2.
      - do 2 eexists; reflexivity.
      - destruct (IH _ _ Hi) as [m [n Em]].
        { split; intros c I; [apply R1, refs_cons; now left|apply R2; cbn; apply in_or_app; now left]. }
        destruct (go cd Hc) as [mc [sl Ec]].
        { intros c I. apply R1, refs_cons. now right. }
        { intros c I. apply R2. cbn. apply in_or_app. now right. }
        exists (m :: mc), (Z.max n sl). cbn [alloc_list]. fold (alloc_list (alloc_item heap (og ++ b))).
        rewrite Em, Ec. reflexivity. }
    destruct X as [mc [sl ->]]. do 2 eexists; reflexivity.
Qed.
Lemma alloc_list_some b cd : Forall (iok b) cd ->
  (forall c, In c (refs b cd) -> heap c = true) ->
  (forall c, In c (flat_map captured_item cd) -> heap c = true) ->
  exists mc sl, alloc_list (alloc_item heap b) cd = Some (mc, sl).
Proof.
  induction 1 as [|i cd Hi Hc IH]; intros R1 R2; [do 2 eexists; reflexivity|].
  destruct (alloc_item_some _ _ Hi) as [m [n Em]].
  { split; intros c I; [apply R1, refs_cons; now left|apply R2; cbn; apply in_or_app; now left]. }
  destruct IH as [mc [sl Ec]].
  { intros c I. apply R1, refs_cons. now right. }
  { intros c I. apply R2. cbn. apply in_or_app. now right. }
  exists (m :: mc), (Z.max n sl). cbn [alloc_list]. rewrite Em, Ec. reflexivity.
Qed.
End Alloc.

(** * Every step succeeds *)
Definition good (b : list (var * nat)) (s : cst) : Prop :=
  (exists og, lexb s = og ++ b) /\ Forall (iok b) (code s).
Definition T (b : list (var * nat)) (m : M) : Prop :=
  forall s, good b s -> exists s', m s = Some s' /\ good b s' /\ exists new, lexb s' = new ++ lexb s.

Lemma T_skip b : T b skip.
Proof. intros s G. exists s. split; [reflexivity|split; [exact G|now exists []]]. Qed.
Lemma T_seq b f g : T b f -> T b g -> T b (f ;; g).
Proof.
  intros Hf Hg s G. destruct (Hf s G) as [s1 [E1 [G1 [n1 L1]]]].
  destruct (Hg s1 G1) as [s2 [E2 [G2 [n2 L2]]]]. exists s2. unfold seq. rewrite E1.
  split; [exact E2|split; [exact G2|]]. exists (n2 ++ n1). now rewrite L2, L1, app_assoc.
Qed.
Lemma T_times b n m : T b m -> T b (times n m).
Proof. intros H. induction n as [|n IH]; cbn; [apply T_skip|now apply T_seq]. Qed.
(** steps that leave code and bindings alone *)
Lemma T_same b m : (forall s, exists s', m s = Some s' /\ code s' = code s /\ lexb s' = lexb s) -> T b m.
Proof.
  intros H s [[og G1] G2]. destruct (H s) as [s' [E [C L]]]. exists s'.
  split; [exact E|split; [split|]]; rewrite ?L, ?C; eauto. now exists [].
Qed.
Lemma T_emit b i : iok b i -> T b (emit i).
Proof.
  intros Hi s [G1 G2]. eexists. split; [reflexivity|split; [split|]]; cbn; auto. now exists [].
Qed.
Lemma T_emiti b i : T b (emiti i).
Proof. apply T_emit. constructor. Qed.
Lemma T_inc b n : T b (inc n).
Proof. apply T_same. intros s. eexists; split; [reflexivity|split; reflexivity]. Qed.
Lemma T_dec b n : T b (dec n).
Proof. apply T_same. intros s. eexists; split; [reflexivity|split; reflexivity]. Qed.
Lemma T_binc b : T b binc.
Proof. apply T_same. intros s. eexists; split; [reflexivity|split; reflexivity]. Qed.
Lemma T_bdec b : T b bdec.
Proof. apply T_same. intros s. eexists; split; [reflexivity|split; reflexivity]. Qed.
Lemma T_cell b t c : T b (tag_cell t c).
Proof.
  apply T_same. intros s. unfold tag_cell. eexists. split; [reflexivity|].
  destruct (tagged _ _ _); split; reflexivity.
Qed.
Lemma T_cells b t l : T b (tag_cells t l).
Proof.
  induction l as [|[x c] l IH]; cbn; [apply T_skip|apply T_seq; [apply T_cell|exact IH]].
Qed.
Lemma T_tag b x t : T b (tag_binding x t).
Proof. intros s. unfold tag_binding. destruct (assoc _ _); [apply T_cell|apply T_skip]. Qed.
Lemma T_modified b x : T b (note_modified x).
Proof.
  intros s. unfold note_modified. destruct (assoc _ _); [|apply T_skip].
  apply T_seq; [apply T_cell|]. intros s1. destruct (tagged _ _ _); [apply T_cell|apply T_skip].
Qed.
Lemma T_referenced b x t : T b (note_referenced x t).
Proof. apply T_seq; [apply T_tag|]. destruct t; [apply T_skip|apply T_tag]. Qed.
Lemma T_call b : T b note_call.
Proof. intros s. apply T_cells. Qed.
Lemma T_closure b : T b note_closure.
Proof. intros s. apply T_cells. Qed.
Lemma T_label b f : (forall l, T b (f l)) -> T b (with_label f).
Proof.
  intros H s [G1 G2]. unfold with_label. apply (H (nlab s) (set_counters (S (nlab s)) (ncell s) s)).
  split; assumption.
Qed.
Lemma T_const b k : T b (compile_constant k).
Proof. apply T_seq; [apply T_emiti|apply T_inc]. Qed.
Lemma T_varset b x : T b (emit_varset x).
Proof.
  intros s G. unfold emit_varset. destruct (assoc x (lexb s)) as [c|] eqn:E; [|now apply T_emiti].
  apply T_emit; [|exact G]. destruct G as [[og L] _]. rewrite L in *. econstructor. exact E.
Qed.
Lemma T_varref b x t : T b (emit_varref x t).
Proof.
  intros s G. unfold emit_varref. destruct (assoc x (lexb s)) as [c|] eqn:E; [|now apply T_emiti].
  apply (T_seq b (emit (ILexRef x (lexb s))) (note_referenced x t)); [|apply T_referenced|exact G].
  apply T_emit. destruct G as [[og L] _]. rewrite L in *. econstructor. exact E.
Qed.
Lemma T_bind b x : T b (note_binding x ;; emit_binding x).
Proof.
  intros s [[og L] G]. eexists. split; [reflexivity|]. cbn. split; [split|].
  - exists ((x, ncell s) :: og). cbn. now rewrite L.
  - cbn. constructor; [|exact G]. rewrite L.
    apply (iok_bind b x ((x, ncell s) :: og) (ncell s)). cbn. now rewrite Nat.eqb_refl.
  - now exists [(x, ncell s)].
Qed.
Lemma T_bind_then b x m : T b m -> T b (note_binding x ;; emit_binding x ;; m).
Proof.
  intros H s G. destruct (T_seq _ _ _ (T_bind b x) H s G) as [s' [E X]]. exists s'.
  split; [|exact X]. exact E.
Qed.
Lemma T_frame b m : T b m -> T b (with_frame m).
Proof.
  intros H s G. destruct (H s G) as [s' [E [[_ C] [new L]]]]. unfold with_frame. rewrite E.
  eexists. split; [reflexivity|].
  assert (X : skipn (length (lexb s') - length (lexb s)) (lexb s') = lexb s).
  { rewrite L, app_length. replace (length new + length (lexb s) - length (lexb s))%nat with (length new) by lia.
    rewrite skipn_app, skipn_all, Nat.sub_diag. reflexivity. }
  rewrite X. split; [split|]; cbn; [apply G|exact C|now exists []].
Qed.
Lemma T_bind_vars b xs : T b (bind_vars xs).
Proof.
  induction xs as [|x xs IH]; cbn; [apply T_skip|].
  apply T_bind_then. apply T_seq; [apply T_dec|exact IH].
Qed.
Lemma T_spec b p : T b (lambda_spec p).
Proof.
  unfold lambda_spec. apply T_seq; [|apply T_seq; [|apply T_seq; [|apply T_bind_vars]]].
  - apply T_times, T_seq; [apply T_emiti|apply T_inc].
  - apply T_times, T_seq; [apply T_emiti|apply T_inc].
  - destruct (rest p); [apply T_seq; [apply T_emiti|apply T_inc]|apply T_skip].
Qed.
Lemma T_pop b k : forall bs, T b (pop_inline bs k (fun x => note_binding x ;; emit_binding x)).
Proof.
  induction bs as [|[x [n|]] bs IH]; cbn [pop_inline].
  - apply T_times, T_seq; [apply T_emiti|apply T_dec].
  - apply T_seq; [apply T_const|]. apply T_seq; [apply T_times, T_seq; [apply T_emiti|apply T_dec]|].
    apply T_seq; [apply T_bind|apply T_seq; [apply T_dec|exact IH]].
  - apply T_seq; [apply T_bind|apply T_seq; [apply T_dec|exact IH]].
Qed.
Lemma T_lambda_rec b name p dl i ls f :
  (forall l s, forall lr, lname lr = name ->
     linlined lr = i -> ldepth lr = match depth_of ls with Some d => d + dl | None => 0 end%nat ->
     llabel lr = l -> good b s -> exists s', f lr s = Some s' /\ good b s' /\ exists new, lexb s' = new ++ lexb s) ->
  T b (with_lambda name p dl i ls f).
Proof. intros H. apply T_label. intros l s G. eapply H; try reflexivity. exact G. Qed.

Lemma T_inline b cb ls p n own :
  (length (req p) <= n)%nat -> ls_ok own ls ->
  (forall lr, ls_ok own (lr :: ls) -> T b (cb (lr :: ls))) ->
  T b (cinline cb ls p n None).
Proof.
  intros L LO H. unfold cinline. rewrite scan_eq. destruct (length (req p) <=? n)%nat eqn:E; [|lia].
  cbn zeta. apply T_seq; [apply T_times, T_seq; [apply T_emiti|apply T_inc]|]. apply T_frame.
  set (vars := _ ++ _).
  assert (W : T b (with_lambda None p 0 true ls (fun lr => emit (ILbl (llabel lr)) ;; cb (lr :: ls)))).
  { apply T_lambda_rec. intros l s lr N I D _ G.
    apply (T_seq b (emit (ILbl (llabel lr))) (cb (lr :: ls))); [apply T_emit; constructor| |exact G].
    apply H. apply ls_ok_inline; assumption. }
  assert (V : T b (emiti InitBind ;; binc ;;
    pop_inline vars (match rest p with Some _ => O | None => n - length (req p) - length (opt p) end)
      (fun x => note_binding x ;; emit_binding x) ;;
    with_lambda None p 0 true ls (fun lr => emit (ILbl (llabel lr)) ;; cb (lr :: ls)) ;;
    emiti Unbind ;; bdec)).
  { apply T_seq; [apply T_emiti|apply T_seq; [apply T_binc|apply T_seq; [apply T_pop|apply T_seq;
      [exact W|apply T_seq; [apply T_emiti|apply T_bdec]]]]]. }
  destruct vars; [|exact V].
  apply T_seq; [apply T_times, T_seq; [apply T_emiti|apply T_dec]|exact W].
Qed.

(** * Every form *)
Section Forms.
Variable n : nat.
Hypothesis IH : forall e, (esize e < n)%nat -> forall d ls own eff rf b,
  plain own eff rf e = true -> shape d e = true -> ls_ok own ls -> T b (comp [] d ls rf e).

Lemma T_body d ls own rf b l :
  (bsize l < n)%nat -> pbody plain own rf l = true -> forallb (shape d) l = true -> ls_ok own ls ->
  T b (cbody (comp [] d) ls rf l).
Proof.
  intros Hs Hp Sh LO. induction l as [|e l IHb]; [apply T_const|].
  cbn [bsize] in Hs. pose proof (esize_pos e). cbn [forallb] in Sh. apply andb_prop in Sh. destruct Sh as [S1 S2].
  destruct l as [|e2 l].
  - cbn [cbody]. cbn in Hp. eapply IH; try eassumption. cbn in Hs. lia.
  - change (cbody (comp [] d) ls rf (e :: e2 :: l)) with
      (comp [] d ls false e ;; emiti Pop ;; dec 1 ;; cbody (comp [] d) ls rf (e2 :: l)).
    change (pbody plain own rf (e :: e2 :: l)) with
      (plain own true false e && pbody plain own rf (e2 :: l)) in Hp.
    apply andb_prop in Hp. destruct Hp as [P1 P2].
    apply T_seq; [eapply IH; try eassumption; lia|apply T_seq; [apply T_emiti|apply T_seq; [apply T_dec|]]].
    apply IHb; [lia|assumption..].
Qed.
Lemma T_args d ls own b l :
  (bsize l < n)%nat -> pargs plain own l = true -> forallb (shape d) l = true -> ls_ok own ls ->
  T b (cargs (comp [] d) ls l).
Proof.
  intros Hs Hp Sh LO. induction l as [|e l IHb]; [apply T_skip|].
  cbn [bsize] in Hs. cbn in Hp. apply andb_prop in Hp. destruct Hp as [P1 P2].
  cbn [forallb] in Sh. apply andb_prop in Sh. destruct Sh as [S1 S2].
  cbn [cargs]. apply T_seq; [eapply IH; try eassumption; lia|apply IHb; [lia|assumption..]].
Qed.
Lemma T_first d ls own b l : forall k,
  (bsize l < n)%nat -> pargs plain own l = true -> forallb (shape d) l = true -> ls_ok own ls ->
  T b (cfirst (comp [] d) ls k l).
Proof.
  induction l as [|e l IHb]; intros k Hs Hp Sh LO.
  - cbn [cfirst]. apply T_times, T_const.
  - cbn [bsize] in Hs. cbn in Hp. apply andb_prop in Hp. destruct Hp as [P1 P2].
    cbn [forallb] in Sh. apply andb_prop in Sh. destruct Sh as [S1 S2].
    cbn [cfirst]. destruct k as [|k]; [apply T_skip|].
    apply T_seq; [eapply IH; try eassumption; lia|apply IHb; [lia|assumption..]].
Qed.
Lemma T_bin d ls own b o l :
  (bsize l < n)%nat -> pargs plain own l = true -> forallb (shape d) l = true -> ls_ok own ls ->
  T b (cbin (comp [] d) ls o l).
Proof.
  intros Hs Hp Sh LO. induction l as [|e l IHb]; [apply T_skip|].
  cbn [bsize] in Hs. cbn in Hp. apply andb_prop in Hp. destruct Hp as [P1 P2].
  cbn [forallb] in Sh. apply andb_prop in Sh. destruct Sh as [S1 S2].
  cbn [cbin]. apply T_seq; [eapply IH; try eassumption; lia|apply T_seq; [apply T_emiti|apply T_seq;
    [apply T_dec|apply IHb; [lia|assumption..]]]].
Qed.
Lemma T_lambda d ls own p l name b :
  (bsize l < n)%nat -> pbody plain name true l = true -> forallb (shape d) l = true -> ls_ok own ls ->
  T b (clambda (comp [] d) ls p l name).
Proof.
  intros Hs Hp Sh LO s G. rewrite clambda_eq. unfold lam_comp.
  assert (X : T (lexb s) (with_lambda name p 1 false ls (fun lr =>
    with_frame (lambda_spec p ;; emit (ILbl (llabel lr)) ;;
                cbody (comp [] d) (lr :: ls) true l ;; emiti Return)))).
  { apply T_lambda_rec. intros lb s0 lr N I D _ G0.
    match goal with |- exists s', with_frame ?m s0 = _ /\ _ => apply (T_frame (lexb s) m) end; [|exact G0].
    apply T_seq; [apply T_spec|apply T_seq; [apply T_emit; constructor|apply T_seq; [|apply T_emiti]]].
    eapply T_body; try eassumption. eapply ls_ok_fun; [exact LO|exact N|exact I|exact D]. }
  destruct (X (lam_start s)) as [s1 [E1 [[_ C1] _]]].
  { split; [now exists []|constructor]. }
  rewrite E1.
  match goal with |- exists s', (emit ?i ;; ?m) ?s2 = _ /\ _ => assert (Y : T b (emit i ;; m)) end.
  { apply T_seq; [|apply T_seq; [apply T_emiti|apply T_seq; [apply T_inc|apply T_closure]]].
    apply T_emit. destruct G as [[og L] _]. rewrite L in *. apply iok_byte.
    apply Forall_rev. exact C1. }
  exact (Y (set_tags (tags s1) (set_counters (nlab s1) (ncell s1) s)) G).
Qed.
Lemma T_named d ls own x b l :
  (bsize l < n)%nat -> pnamed plain own x l = true -> forallb (shape d) l = true -> ls_ok own ls ->
  T b (cbody_named (comp [] d) ls x l).
Proof.
  intros Hs Hp Sh LO. induction l as [|e l IHb]; [apply T_const|].
  cbn [bsize] in Hs. pose proof (esize_pos e). cbn [forallb] in Sh. apply andb_prop in Sh. destruct Sh as [S1 S2].
  destruct l as [|e2 l].
  - destruct e; try (cbn [cbody_named]; cbn [pnamed] in Hp; eapply IH with (own := own) (eff := false); try eassumption;
      cbn in Hs |- *; lia).
    cbn [cbody_named]. cbn [pnamed] in Hp. apply andb_prop in Hp. destruct Hp as [_ Hp].
    eapply T_lambda; try eassumption. rewrite esize_eq in Hs. lia.
  - replace (cbody_named (comp [] d) ls x (e :: e2 :: l)) with
      (comp [] d ls false e ;; emiti Pop ;; dec 1 ;; cbody_named (comp [] d) ls x (e2 :: l))
      by (destruct e; reflexivity).
    replace (pnamed plain own x (e :: e2 :: l)) with
      (plain own true false e && pnamed plain own x (e2 :: l)) in Hp by (destruct e; reflexivity).
    apply andb_prop in Hp. destruct Hp as [P1 P2].
    apply T_seq; [eapply IH; try eassumption; lia|apply T_seq;
      [apply T_emiti|apply T_seq; [apply T_dec|apply IHb; [lia|assumption..]]]].
Qed.
Lemma T_lets d ls own b bs :
  (ksize bs < n)%nat -> plets plain own bs = true ->
  forallb (fun c => forallb (shape d) (snd c)) bs = true -> ls_ok own ls ->
  T b (clets (comp [] d) ls bs).
Proof.
  intros Hs Hp Sh LO. induction bs as [|[x l] bs IHb]; [apply T_skip|].
  cbn [ksize] in Hs. cbn in Hp. apply andb_prop in Hp. destruct Hp as [P1 P2].
  cbn [forallb snd] in Sh. apply andb_prop in Sh. destruct Sh as [S1 S2].
  cbn [clets]. apply T_seq; [eapply T_body; try eassumption; lia|].
  apply T_bind_then. apply T_seq; [apply T_dec|apply IHb; [lia|assumption..]].
Qed.
Lemma T_nils b bs : T b (cnils bs).
Proof.
  induction bs as [|[x l] bs IHb]; [apply T_skip|]. cbn [cnils].
  apply T_seq; [apply T_const|]. apply T_bind_then. apply T_seq; [apply T_dec|exact IHb].
Qed.
Lemma T_sets d ls own b bs :
  (ksize bs < n)%nat -> precs plain own bs = true ->
  forallb (fun c => forallb (shape d) (snd c)) bs = true -> ls_ok own ls ->
  T b (csets (comp [] d) ls bs).
Proof.
  intros Hs Hp Sh LO. induction bs as [|[x l] bs IHb]; [apply T_skip|].
  cbn [ksize] in Hs. cbn in Hp. apply andb_prop in Hp. destruct Hp as [P1 P2].
  cbn [forallb snd] in Sh. apply andb_prop in Sh. destruct Sh as [S1 S2].
  cbn [csets]. apply T_seq; [eapply T_named; try eassumption; lia|apply T_seq; [apply T_varset|
    apply T_seq; [apply T_dec|apply IHb; [lia|assumption..]]]].
Qed.
Lemma T_cond d ls own rf el b cls :
  (csize cls < n)%nat -> pcond plain own rf cls = true ->
  forallb (fun cl => shape d (fst cl) && forallb (shape d) (snd cl)) cls = true -> ls_ok own ls ->
  T b (ccond (comp [] d) ls rf el cls).
Proof.
  intros Hs Hp Sh LO. induction cls as [|[e l] cls IHb]; [apply T_emiti|].
  cbn [csize] in Hs. cbn [pcond] in Hp. apply andb_prop in Hp. destruct Hp as [Hp P3].
  apply andb_prop in Hp. destruct Hp as [P1 P2].
  cbn [forallb fst snd] in Sh. apply andb_prop in Sh. destruct Sh as [Sh S3].
  apply andb_prop in Sh. destruct Sh as [S1 S2].
  cbn [ccond]. apply T_label. intros nl.
  assert (B0 : T b (cbody (comp [] d) ls rf l)) by (eapply T_body; try eassumption; lia).
  assert (G : T b (ccond (comp [] d) ls rf el cls)) by (apply IHb; [lia|assumption..]).
  destruct (cconst e) as [[]|] eqn:Ec.
  - destruct l; [|apply T_seq; [exact B0|apply T_dec]].
    assert (X : T b (comp [] d ls rf e ;; dec 1)).
    { destruct e; try discriminate. apply T_seq; [|apply T_dec].
      intros s. rewrite comp_eq. apply T_const. }
    destruct e; try discriminate. destruct k; try exact X. apply T_emiti.
  - exact G.
  - apply T_seq; [eapply IH; try eassumption; lia|apply T_seq; [apply T_dec|]].
    destruct l as [|e1 l], cls as [|c cls].
    + apply T_skip.
    + apply T_seq; [apply T_emit; constructor|exact G].
    + apply T_seq; [apply T_emit; constructor|apply T_seq; [exact B0|apply T_dec]].
    + apply T_seq; [apply T_emit; constructor|apply T_seq; [exact B0|apply T_seq; [apply T_dec|
        apply T_seq; [apply T_emit; constructor|apply T_seq; [apply T_emit; constructor|exact G]]]]].
Qed.
Lemma T_case d ls own rf el b cls : forall df,
  (ksize cls < n)%nat -> pcase plain own rf cls = true ->
  forallb (fun cl => match fst cl with Some [] => false | _ => true end
                     && forallb (shape d) (snd cl)) cls = true -> ls_ok own ls ->
  T b (ccase (comp [] d) ls rf el df cls).
Proof.
  induction cls as [|[ks l] cls IHb]; intros df Hs Hp Sh LO.
  { cbn [ccase]. destruct df; [apply T_skip|apply T_emiti]. }
  cbn [ksize] in Hs. cbn [pcase] in Hp. apply andb_prop in Hp. destruct Hp as [Hp P3].
  apply andb_prop in Hp. destruct Hp as [P1 P2].
  cbn [forallb fst snd] in Sh. apply andb_prop in Sh. destruct Sh as [Sh S3].
  apply andb_prop in Sh. destruct Sh as [S1 S2].
  cbn [ccase]. apply T_label. intros nl.
  apply T_seq; [|apply T_seq; [eapply T_body; try eassumption; lia|apply T_seq; [apply T_dec|
    apply T_seq; [apply T_emit; constructor|apply T_seq; [apply T_emit; constructor|
    apply IHb; [lia|assumption..]]]]]].
  destruct ks as [[|k [|k2 ks]]|]; try discriminate; try apply T_skip;
  (apply T_seq; [apply T_emiti|apply T_seq; [apply T_inc|apply T_seq; [apply T_const|apply T_seq;
    [apply T_emiti|apply T_seq; [apply T_dec|apply T_seq; [apply T_emit; constructor|apply T_dec]]]]]]).
Qed.
End Forms.

Theorem T_comp : forall n e, (esize e < n)%nat -> forall d ls own eff rf b,
  plain own eff rf e = true -> shape d e = true -> ls_ok own ls -> T b (comp [] d ls rf e).
Proof.
  induction n as [|n IH]; intros e Hs d ls own eff rf bb Hp Sh LO; [lia|].
  intros s. rewrite comp_eq. revert s. rewrite esize_eq in Hs.
  match goal with |- forall s, good _ s -> exists s', ?m s = Some s' /\ _ => change (T bb m) end.
  destruct e; cbn [plain] in Hp; cbn [shape] in Sh; cbn zeta beta iota;
    repeat match goal with H : _ && _ = true |- _ => apply andb_prop in H; destruct H end.
  - apply T_const.
  - apply T_seq; [apply T_varref|apply T_inc].
  - apply T_seq; [eapply IH; try eassumption; lia|apply T_seq; [apply T_emiti|apply T_seq; [apply T_inc|
      apply T_seq; [apply T_varset|apply T_seq; [apply T_modified|apply T_dec]]]]].
  - apply T_seq; [apply T_const|apply T_seq; [eapply IH; try eassumption; lia|apply T_seq;
      [apply T_emiti|apply T_dec]]].
  - apply T_seq; [apply T_const|apply T_seq; [eapply T_lambda; try eassumption; lia|apply T_seq;
      [apply T_emiti|apply T_dec]]].
  - apply T_seq; [eapply T_first; try eassumption; lia|apply T_seq; [apply T_emiti|]].
    destruct (arity o); [apply T_inc|apply T_dec].
  - destruct args as [|e1 [|e2 args]]; try discriminate.
    cbn [pargs forallb] in *. repeat match goal with H : _ && _ = true |- _ => apply andb_prop in H; destruct H end.
    cbn [bsize] in Hs.
    apply T_seq; [eapply IH; try eassumption; lia|].
    eapply T_bin; try eassumption; cbn [bsize pargs forallb]; try lia; now apply andb_true_intro.
  - apply T_seq; [eapply T_args; try eassumption; lia|apply T_seq; [apply T_const|]].
    apply T_times, T_seq; [apply T_emiti|apply T_dec].
  - assert (X : T bb (comp [] d ls false e ;; cargs (comp [] d) ls args ;;
      emiti (Call (length args)) ;; note_call ;; dec (Z.of_nat (length args)))).
    { apply T_seq; [eapply IH; try eassumption; lia|apply T_seq; [eapply T_args; try eassumption; lia|
        apply T_seq; [apply T_emiti|apply T_seq; [apply T_call|apply T_dec]]]]. }
    intros s. destruct (head_var e) as [x|] eqn:Ef; [|apply X].
    rewrite (inlinable_none own ls rf e x s LO Ef); [apply X|now apply negb_true_iff].
  - eapply T_lambda; try eassumption. lia.
  - destruct d as [|d]; [discriminate|]. cbn [iargs_of inl_of].
    repeat match goal with H : _ && _ = true |- _ => apply andb_prop in H; destruct H end.
    apply T_seq; [eapply T_args; try eassumption; lia|].
    eapply T_inline; [lia|exact LO|]. intros lr LO'. eapply T_body; try eassumption. lia.
  - assert (X : T bb (comp [] d ls false e ;; cargs (comp [] d) ls args ;;
      emiti (Call (length args)) ;; note_call ;; dec (Z.of_nat (length args)))).
    { apply T_seq; [eapply IH; try eassumption; lia|apply T_seq; [eapply T_args; try eassumption; lia|
        apply T_seq; [apply T_emiti|apply T_seq; [apply T_call|apply T_dec]]]]. }
    destruct e; try exact X. discriminate.
  - eapply T_body; try eassumption. lia.
  - apply T_seq; [eapply IH; try eassumption; lia|apply T_seq; [eapply T_body; try eassumption; lia|
      apply T_seq; [apply T_emiti|apply T_dec]]].
  - apply T_label. intros el. apply T_seq; [eapply T_cond; try eassumption; lia|apply T_seq;
      [apply T_inc|apply T_emit; constructor]].
  - apply T_label. intros el. apply T_seq; [eapply IH; try eassumption; lia|apply T_seq;
      [eapply T_case; try eassumption; lia|apply T_seq; [apply T_inc|apply T_seq;
      [apply T_emit; constructor|apply T_seq; apply T_emiti]]]].
  - apply T_label. intros l1. apply T_label. intros l2.
    apply T_seq; [apply T_emit; constructor|apply T_seq; [apply T_emit; constructor|apply T_seq;
      [eapply T_body; try eassumption; lia|apply T_seq; [apply T_emiti|apply T_seq; [apply T_dec|apply T_seq;
      [apply T_emit; constructor|apply T_seq; [eapply IH; try eassumption; lia|apply T_emit; constructor]]]]]]].
  - apply T_frame. apply T_seq; [apply T_emiti|apply T_seq; [apply T_binc|apply T_seq;
      [eapply T_lets; try eassumption; lia|apply T_seq; [eapply T_body; try eassumption; lia|apply T_seq;
      [apply T_emiti|apply T_bdec]]]]].
  - assert (X : T bb ((emiti InitBind ;; binc ;; cnils bs ;; csets (comp [] d) ls bs)
      ;; cbody (comp [] d) ls rf b ;; emiti Unbind ;; bdec)).
    { apply T_seq; [apply T_seq; [apply T_emiti|apply T_seq; [apply T_binc|apply T_seq; [apply T_nils|
        eapply T_sets; try eassumption; lia]]]|apply T_seq; [eapply T_body; try eassumption; lia|apply T_seq;
        [apply T_emiti|apply T_bdec]]]. }
    apply T_frame. intros s G. destruct (X s G) as [s' [E R]]. exists s'. split; [|exact R].
    unfold seq at 1 in E.
    destruct ((emiti InitBind ;; binc ;; cnils bs ;; csets (comp [] d) ls bs) s); [|discriminate].
    rewrite (loop_none _ _ c); [exact E|]. now apply negb_true_iff.
Qed.

Lemma form_total d eff e :
  plain None eff true e = true -> shape d e = true ->
  exists a t, form_at d [] e = Some (a, t) /\
  forall heap, (forall c, In c (captured (asm_code a)) -> heap c = true) ->
  exists f, alloc_asm heap [] a = Some f.
Proof.
  intros Hp Sh.
  assert (X : T [] (with_lambda None no_params 1 false [] (fun lr =>
      emit (ILbl (llabel lr)) ;; comp [] d [lr] true e ;; emiti Return))).
  { apply T_lambda_rec. intros l s lr N I D _ G.
    apply (T_seq [] (emit (ILbl (llabel lr))) (comp [] d [lr] true e ;; emiti Return));
      [apply T_emit; constructor| |exact G].
    apply T_seq; [|apply T_emiti]. eapply (T_comp (S (esize e)) e (le_n _)); try eassumption.
    apply (ls_ok_fun None None []); [apply ls_ok_nil|assumption..]. }
  destruct (X cst0) as [s [E [[_ C] _]]]; [split; [now exists []|constructor]|].
  unfold form_at. revert E. match goal with |- ?m = _ -> _ => generalize m end. intros o ->.
  do 2 eexists. split; [reflexivity|]. cbn [asm_code]. intros heap Hc. unfold alloc_asm.
  destruct (alloc_list_some heap [] (rev (code s))) as [mc [sl ->]].
  - apply Forall_rev. exact C.
  - intros c I. unfold refs in I. apply in_flat_map in I. destruct I as [i [_ I]]. destruct i; destruct I.
  - exact Hc.
  - eexists. reflexivity.
Qed.
Lemma compile_total unsafe eff e :
  plain None eff true e = true -> shape max_inline e = true ->
  exists f, compile unsafe [] e = Some f.
Proof.
  unfold compile, compile_form. generalize max_inline. intros d Hp Sh.
  destruct (form_total d eff e Hp Sh) as [a [t [E A]]]. rewrite E. apply A.
  intros c I. unfold heap_binding. apply orb_true_iff. left. apply existsb_exists. exists c.
  split; [assumption|apply Nat.eqb_refl].
Qed.
