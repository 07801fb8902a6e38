(** Compiled code simulates the interpreter: relations and single steps. *)
From Coq Require Import List Arith Bool ZArith Lia ZifyBool.
From Verif Require Import Compile_Model Compile_Spec Compile_Proofs.
Import ListNotations.
Open Scope Z_scope.

(** * The interpreter, case by case *)
Section Eval.
Variable P : prims.

Definition applyf (n : nat) (f : sval) (vs : list sval) (s : sst) : res :=
  match f with
  | VFun c =>
      match bind_params (sp c) vs with
      | None => RErr Missing s
      | Some bs =>
          match n with
          | O => ROut
          | S n =>
              let '(en, s) := bind_all bs (senv c) s in
              evbody (eval P n) (sb c) en s
          end
      end
  | _ => RErr NotFun s
  end.
Definition again (n : nat) (c : exp) (b : list exp) en s : res :=
  match n with O => ROut | S n => eval P n (EWhile c b) en s end.

Lemma eval_eq n e en s : eval P n e en s =
  let ev := eval P n in
  match e with
  | EConst k => RVal (kval k) s
  | EVar x => lookup x en s
  | ESet x e => match ev e en s with RVal v s => assign x v en s | r => r end
  | EDefine x e =>
      match ev e en s with
      | RVal v s => RVal VUndef {| cells := cells s; globs := set_assoc x v (globs s) |}
      | r => r
      end
  | EDefun x p b =>
      RVal VUndef {| cells := cells s;
                     globs := set_assoc x (VFun {| sp := p; sb := b; senv := en |}) (globs s) |}
  | EPrim o args =>
      evals ev args en s (fun vs s => of_sum (apply_op P o (first_args (arity o) vs)) s)
  | EBin o args =>
      evals ev args en s (fun vs s =>
        match vs with [] => RErr Missing s | v :: vs => of_sum (fold_op P o v vs) s end)
  | EList args => evals ev args en s (fun vs s => RVal (listv vs) s)
  | ECall f args | EFuncall f args =>
      match ev f en s with
      | RVal fv s => evals ev args en s (fun vs s => applyf n fv vs s)
      | r => r
      end
  | ELam p b => RVal (VFun {| sp := p; sb := b; senv := en |}) s
  | EInline p b args =>
      evals ev args en s (fun vs s =>
        match bind_params p vs with
        | None => RErr Missing s
        | Some bs => let '(en, s) := bind_all bs en s in evbody ev b en s
        end)
  | EProgn b => evbody ev b en s
  | EProg1 e b =>
      match ev e en s with
      | RVal v s => match evbody ev b en s with RVal _ s => RVal v s | r => r end
      | r => r
      end
  | ECond cls => evcond ev cls en s
  | ECase k cls =>
      match ev k en s with RVal v s => evcase ev v cls en s | r => r end
  | EWhile c b =>
      match ev c en s with
      | RVal v s =>
          if nilp v then RVal VNil s
          else match evbody ev b en s with
               | RVal _ s => again n c b en s
               | r => r
               end
      | r => r
      end
  | ELets bs b => evlets ev bs en s (fun en s => evbody ev b en s)
  | ELetrec bs b =>
      let '(en, s) := bind_all (map (fun b => (fst b, VNil)) bs) en s in
      evsets ev bs en s (fun s => evbody ev b en s)
  end.
Proof. destruct n, e; reflexivity. Qed.
End Eval.

Section Sim.
Variable P : prims.
Variable heap : nat -> bool.

(** * Relations *)

(** a binding: variable, cell of the compiler, cell of the interpreter's store *)
Notation entry := (var * nat * nat)%type.
Definition lex (G : list entry) : list (var * nat) := map fst G.
Definition locs (G : list entry) : list (var * nat) := map (fun e => (fst (fst e), snd e)) G.
Lemma lex_app a b : lex (a ++ b) = lex a ++ lex b.
Proof. apply map_app. Qed.
Lemma locs_app a b : locs (a ++ b) = locs a ++ locs b.
Proof. apply map_app. Qed.

(** the machine's environment: the heap cells of the bindings that have one *)
Fixpoint henv (j : nat -> option nat) (G : list entry) (t : list nat) : Prop :=
  match G with
  | [] => t = []
  | (x, c, l) :: G =>
      if heap c then match t with h :: t' => j l = Some h /\ henv j G t' | [] => False end
      else henv j G t
  end.

Definition clam (p : params) (b : list exp) (ga : list (var * nat)) (f : cobj) : Prop :=
  exists d ls own name s s1,
    lam_comp d ls p b name s = Some s1 /\ lexb s = ga /\ ls_ok own ls /\
    pbody plain name true b = true /\ distinct (lambda_vars p) = true /\
    mx s1 < 1024 /\ bmx s1 < 1024 /\ forallb small_item (rev (code s1)) = true /\
    (forall c, In c (refs ga (rev (code s1))) -> heap c = true) /\
    (forall c, In c (captured (rev (code s1))) -> heap c = true) /\
    alloc_asm heap ga (Asm (rev (code s1)) (mx s1) (bmx s1)) = Some f.

Definition crel (j : nat -> option nat) (c : sclo) (t : tclo) : Prop :=
  exists G, clam (sp c) (sb c) (lex G) (tcode t)
            /\ (forall x, assoc x (senv c) = assoc x (locs G)) /\ henv j G (tenv t).

Inductive vrel (j : nat -> option nat) : sval -> tval -> Prop :=
| vr_nil : vrel j VNil VNil
| vr_t : vrel j VT VT
| vr_undef : vrel j VUndef VUndef
| vr_num z : vrel j (VNum z) (VNum z)
| vr_sym x : vrel j (VSym x) (VSym x)
| vr_pair a a' d d' : vrel j a a' -> vrel j d d' -> vrel j (VPair a d) (VPair a' d')
| vr_fun c t : crel j c t -> vrel j (VFun c) (VFun t).

Definition grel j (g : list (var * sval)) (g' : list (var * tval)) : Prop :=
  Forall2 (fun a b => fst a = fst b /\ vrel j (snd a) (snd b)) g g'.

Definition jsub (j j' : nat -> option nat) : Prop := forall l h, j l = Some h -> j' l = Some h.

Lemma henv_mono j j' G : forall t, jsub j j' -> henv j G t -> henv j' G t.
Proof.
  induction G as [|[[x c] l] G IH]; cbn; intros t S H; [assumption|].
  destruct (heap c); [|auto]. destruct t as [|h t]; [assumption|]. destruct H; split; auto.
Qed.
Lemma crel_mono j j' c t : jsub j j' -> crel j c t -> crel j' c t.
Proof.
  intros S [G [A [B C]]]. exists G. split; [|split]; try assumption. eapply henv_mono; eassumption.
Qed.
Lemma vrel_mono j j' v v' : jsub j j' -> vrel j v v' -> vrel j' v v'.
Proof. intros S H. induction H; constructor; auto. eapply crel_mono; eassumption. Qed.
Lemma vrels_mono j j' vs vs' : jsub j j' -> Forall2 (vrel j) vs vs' -> Forall2 (vrel j') vs vs'.
Proof. intros S H. induction H; constructor; auto. eapply vrel_mono; eassumption. Qed.
Lemma grel_mono j j' g g' : jsub j j' -> grel j g g' -> grel j' g g'.
Proof.
  intros S H. induction H as [|a b l l' [E V]]; constructor; auto. split; [assumption|].
  eapply vrel_mono; eassumption.
Qed.
Lemma jsub_refl j : jsub j j.
Proof. intros l h H. exact H. Qed.
Lemma jsub_trans a b c : jsub a b -> jsub b c -> jsub a c.
Proof. intros A B l h H. apply B, A, H. Qed.

Lemma vrel_kval j k : vrel j (kval k) (kval k).
Proof. induction k; cbn; constructor; assumption. Qed.
Lemma vrel_nilp j v v' : vrel j v v' -> nilp v = nilp v'.
Proof. now destruct 1. Qed.
Lemma vrel_first j v v' : vrel j v v' -> first_order v = first_order v'.
Proof. induction 1; cbn; try reflexivity. now rewrite IHvrel1, IHvrel2. Qed.
Lemma vrel_bool j b : vrel j (boolv b) (boolv b).
Proof. destruct b; constructor. Qed.
Lemma vrel_listv j vs vs' : Forall2 (vrel j) vs vs' -> vrel j (listv vs) (listv vs').
Proof. induction 1; cbn; constructor; auto. Qed.
Lemma all_first_rel j vs vs' : Forall2 (vrel j) vs vs' -> all_first vs = all_first vs'.
Proof.
  induction 1; cbn; [reflexivity|]. now rewrite (vrel_first _ _ _ H), IHForall2.
Qed.

Definition sum_rel j (a : sval + err) (b : tval + err) : Prop :=
  match a, b with inl v, inl v' => vrel j v v' | inr e, inr e' => e = e' | _, _ => False end.
Lemma apply_op_rel j o vs vs' :
  Forall2 (vrel j) vs vs' -> sum_rel j (apply_op P o vs) (apply_op P o vs').
Proof.
  intros H.
  assert (A := all_first_rel _ _ _ H).
  destruct o; cbn [apply_op].
  6:{ rewrite A. destruct (all_first vs') as [ks|]; [|reflexivity].
      destruct (P k ks); cbn; [apply vrel_kval|reflexivity]. }
  all: destruct H as [|v v' l l' V L]; [reflexivity|].
  5:{ destruct L; destruct V; cbn; try reflexivity; constructor. }
  4:{ destruct L; cbn; [|reflexivity]. rewrite (vrel_nilp _ _ _ V). apply vrel_bool. }
  3:{ destruct L as [|w w' l l' W L]; [reflexivity|]. destruct L; cbn; [|reflexivity].
      now constructor. }
  all: destruct L; destruct V; cbn; try reflexivity; try constructor; assumption.
Qed.

(** * The running function *)
Record fn := {
  fC : list item; fbase : list (var * nat); fsl : nat;
  flim : Z; fblim : Z; fargv : list tval; fsusp : list act }.

Definition al base i : mitem :=
  match alloc_item heap base i with Some (m, _) => m | None => MI Return end.

Definition mk (F : fn) r k te fr sls h g : mst :=
  {| top := {| rst := map (al (fbase F)) r; prog := map (al (fbase F)) (fC F);
               stk := k; env := te; frs := fr; slots := sls; argv := fargv F;
               lim := flim F; blim := fblim F |};
     susp := fsusp F; hcells := h; tglobs := g; pend := None |}.

Record fnok (F : fn) : Prop := {
  f_all : forall i, In i (fC F) -> exists m n,
            alloc_item heap (fbase F) i = Some (m, n) /\ n <= Z.of_nat (fsl F);
  f_refs : forall c, In c (refs (fbase F) (fC F)) -> heap c = true;
  f_capt : forall c, In c (captured (fC F)) -> heap c = true;
  f_small : forallb small_item (fC F) = true }.

(** the number of slots of some bindings *)
Fixpoint nslots (G : list entry) : nat :=
  match G with
  | [] => O
  | (_, c, _) :: G => if heap c then nslots G else S (nslots G)
  end.
Fixpoint nheap (G : list entry) : nat :=
  match G with
  | [] => O
  | (_, c, _) :: G => if heap c then S (nheap G) else nheap G
  end.

Fixpoint slotsok j (og : list entry) (sls : list (option tval)) (cs : list sval) : Prop :=
  match og with
  | [] => True
  | (_, c, l) :: og =>
      (heap c = false -> j l = None /\ exists v v', nth_error sls (nslots og) = Some (Some v') /\
                                        nth_error cs l = Some v /\ vrel j v v')
      /\ slotsok j og sls cs
  end.

Record mrel (F : fn) j (st : sst) (og bg : list entry) te sls h g : Prop := {
  m_env : henv j (og ++ bg) te;
  m_sl : slotsok j og sls (cells st);
  m_nd : NoDup (map snd og);
  m_lt : Forall (fun e => (snd e < length (cells st))%nat) og;
  m_heap : forall l hl, j l = Some hl -> exists v v',
             nth_error (cells st) l = Some v /\ nth_error h hl = Some v' /\ vrel j v v';
  m_inj : forall l l' hl, j l = Some hl -> j l' = Some hl -> l = l';
  m_glob : grel j (globs st) g;
  m_len : length sls = fsl F }.

(** what evaluation leaves alone *)
Record ext (og : list entry) j (st : sst) j' (st' : sst) : Prop := {
  e_sub : jsub j j';
  e_eq : forall l, (l < length (cells st))%nat -> j' l = j l;
  e_len : (length (cells st) <= length (cells st'))%nat;
  e_cells : forall l, (l < length (cells st))%nat -> j l = None -> ~ In l (map snd og) ->
            nth_error (cells st') l = nth_error (cells st) l }.

Lemma ext_refl og j st : ext og j st j st.
Proof. constructor; auto using jsub_refl. Qed.
Lemma ext_trans og j st j1 st1 j2 st2 :
  ext og j st j1 st1 -> ext og j1 st1 j2 st2 -> ext og j st j2 st2.
Proof.
  intros [A1 A2 A3 A4] [B1 B2 B3 B4]. constructor.
  - eapply jsub_trans; eassumption.
  - intros l L. rewrite B2, A2; [reflexivity|lia|lia].
  - lia.
  - intros l L J N. rewrite B4, A4; auto; [lia|]. rewrite A2; assumption.
Qed.
(** bindings made since then do not matter *)
Lemma ext_drop og new j st j' st' :
  Forall (fun e : entry => (length (cells st) <= snd e)%nat) new ->
  ext (new ++ og) j st j' st' -> ext og j st j' st'.
Proof.
  intros N [A1 A2 A3 A4]. constructor; try assumption.
  intros l L J I. apply A4; try assumption. rewrite map_app. intros H. apply in_app_or in H.
  destruct H as [H|H]; [|contradiction]. apply in_map_iff in H. destruct H as [e [E H]].
  rewrite Forall_forall in N. specialize (N _ H). lia.
Qed.

(** * Outcomes *)
Inductive steps : nat -> mst -> mst -> Prop :=
| st_0 s : steps 0 s s
| st_S n s s1 s2 : step P s = Next s1 -> steps n s1 s2 -> steps (S n) s s2.
Lemma steps_trans n m s1 s2 s3 : steps n s1 s2 -> steps m s2 s3 -> steps (n + m) s1 s3.
Proof. induction 1; cbn; intros H1; [assumption|]. econstructor; eauto. Qed.

Definition fails (n : nat) (r : res) (M : mst) : Prop :=
  match r with
  | RVal _ _ => False
  | RErr e st =>
      is_unset e = true \/
      exists m M1 h g j, steps m M M1 /\ step P M1 = Done (Err e h g) /\ grel j (globs st) g
  | ROut => exists m M1, (n <= m)%nat /\ steps m M M1
  end.
Definition rok (n : nat) (r : res) (M : mst) (Q : sval -> sst -> mst -> Prop) : Prop :=
  match r with
  | RVal v st => exists m M1, steps m M M1 /\ Q v st M1
  | _ => fails n r M
  end.

Lemma rok_steps n m r M M1 Q : steps m M M1 -> rok n r M1 Q -> rok n r M Q.
Proof.
  intros S H. destruct r; cbn in *.
  - destruct H as [m1 [M2 [S2 H]]]. exists (m + m1)%nat, M2. split; [|assumption].
    eapply steps_trans; eassumption.
  - destruct H as [H|[m1 [M2 [h [g [j [S2 H]]]]]]]; [now left|right].
    exists (m + m1)%nat, M2, h, g, j. split; [eapply steps_trans; eassumption|assumption].
  - destruct H as [m1 [M2 [L S2]]]. exists (m + m1)%nat, M2.
    split; [lia|eapply steps_trans; eassumption].
Qed.
Lemma rok_step n r M M1 Q : step P M = Next M1 -> rok n r M1 Q -> rok n r M Q.
Proof. intros S. apply rok_steps with (m := 1%nat). econstructor; [exact S|constructor]. Qed.
Lemma rok_step_S n r M M1 Q : step P M = Next M1 -> rok n r M1 Q -> rok (S n) r M Q.
Proof.
  intros St H.
  destruct r; [exact (rok_step n _ _ _ _ St H)|exact (rok_step n _ _ _ _ St H)|].
  destruct H as [m1 [M2 [L S2]]]. exists (S m1), M2. split; [lia|econstructor; eassumption].
Qed.
Lemma rok_imp n r M (Q Q' : sval -> sst -> mst -> Prop) :
  (forall v st M1, Q v st M1 -> Q' v st M1) -> rok n r M Q -> rok n r M Q'.
Proof.
  intros I. destruct r; cbn; try tauto. intros [m [M1 [S H]]]. exists m, M1. auto.
Qed.
Lemma rok_bind n r M Q Q' f :
  rok n r M Q -> (forall v st M1, Q v st M1 -> rok n (f v st) M1 Q') ->
  rok n (match r with RVal v s => f v s | RErr e s => RErr e s | ROut => ROut end) M Q'.
Proof.
  intros H I. destruct r; cbn in *; try assumption.
  destruct H as [m [M1 [S H]]]. eapply rok_steps; [exact S|auto].
Qed.
Lemma rok_val n v st M (Q : sval -> sst -> mst -> Prop) : Q v st M -> rok n (RVal v st) M Q.
Proof. intros H. exists O, M. split; [constructor|assumption]. Qed.

(** * Positions *)
Definition pos (F : fn) (c : list item) (r : list item) : Prop := fC F = rev c ++ r.

Lemma pos_cons F i c r : pos F (i :: c) r -> pos F c (i :: r).
Proof. unfold pos. cbn. rewrite <- app_assoc. cbn. auto. Qed.
Lemma pos_uniq F c r r' : pos F c r -> pos F c r' -> r = r'.
Proof. unfold pos. intros A B. rewrite A in B. now apply app_inv_head in B. Qed.
Lemma pos_new F new c r : pos F (new ++ c) r -> pos F c (rev new ++ r).
Proof. unfold pos. rewrite rev_app_distr, <- app_assoc. auto. Qed.
Lemma pos_gr F lo s s' r' : gr lo s s' -> pos F (code s') r' -> exists r, pos F (code s) r.
Proof.
  intros [[new [E _]] _ _ _] H. rewrite E in H. eexists. apply pos_new. exact H.
Qed.
Lemma pos_in F c i r : pos F c (i :: r) -> In i (fC F).
Proof. unfold pos. intros ->. apply in_or_app. right. now left. Qed.


Lemma al_lbl base i l : al base i = MLbl l -> i = ILbl l.
Proof.
  unfold al. destruct i as [l0|k l0|i|x e|x e|x e|[c ms mb] e]; cbn; intros H; try discriminate.
  - injection H as ->. reflexivity.
  - destruct (assoc x e) as [c|]; [|discriminate]. destruct (heap c); [discriminate|].
    destruct (slot_address heap x e base); discriminate.
  - destruct (assoc x e) as [c|]; [|discriminate].
    destruct (heap c); [destruct (heap_address heap x e)|destruct (slot_address heap x e base)];
      discriminate.
  - destruct (assoc x e) as [c|]; [|discriminate].
    destruct (heap c); [destruct (heap_address heap x e)|destruct (slot_address heap x e base)];
      discriminate.
  - destruct (alloc_list (alloc_item heap e) c) as [[mc sl]|]; discriminate.
Qed.
Lemma mfind_skip base l c r :
  ~ In l (labs c) -> mfind l (map (al base) (c ++ ILbl l :: r)) = Some (map (al base) r).
Proof.
  intros N. induction c as [|i c IH]; cbn [app map].
  - change (al base (ILbl l)) with (MLbl l). cbn [mfind]. now rewrite Nat.eqb_refl.
  - assert (N' : ~ In l (labs c)).
    { intros H. apply N. change (labs (i :: c)) with (labs ([i] ++ c)). rewrite labs_app.
      apply in_or_app. now right. }
    destruct (al base i) as [l'| | | | | | | |] eqn:E; try (apply IH; assumption).
    cbn [mfind]. destruct (Nat.eqb l l') eqn:El; [|apply IH; assumption].
    apply Nat.eqb_eq in El. subst l'. apply al_lbl in E. subst i. exfalso. apply N. now left.
Qed.
Lemma labs_rev c l : In l (labs (rev c)) <-> In l (labs c).
Proof.
  unfold labs. rewrite !in_flat_map. split; intros [i [A B]]; exists i; split; auto;
    [now apply in_rev|now apply in_rev in A].
Qed.
Lemma mfind_pos F c l r :
  pos F c (ILbl l :: r) -> ~ In l (labs c) ->
  mfind l (map (al (fbase F)) (fC F)) = Some (map (al (fbase F)) r).
Proof.
  unfold pos. intros -> N. apply mfind_skip. now rewrite labs_rev.
Qed.

(** * Single steps *)
Definition fit (F : fn) (k : list tval) (fr : list nat) : Prop :=
  Z.of_nat (length k) <= flim F /\ Z.of_nat (length fr) <= fblim F + 1.

Lemma go_mk F r r0 k k0 te fr sls h g :
  fit F k fr ->
  go (map (al (fbase F)) r) k (mk F r0 k0 te fr sls h g) = Next (mk F r k te fr sls h g).
Proof.
  intros [A B]. unfold go, mk. cbn. unfold fits. cbn.
  apply Z.leb_le in A. apply Z.leb_le in B. now rewrite A, B.
Qed.

Section Steps.
Variables (F : fn) (r : list item) (k : list tval) (te fr : list nat)
  (sls : list (option tval)) (h : list tval) (g : list (var * tval)).
Notation at' r k := (mk F r k te fr sls h g).

Lemma step_lbl l : fit F k fr -> step P (at' (ILbl l :: r) k) = Next (at' r k).
Proof. intros H. refine (go_mk F r _ k _ te fr sls h g H). Qed.
Lemma step_push c : fit F (kval c :: k) fr ->
  step P (at' (II (Push c) :: r) k) = Next (at' r (kval c :: k)).
Proof. intros H. refine (go_mk F r _ _ _ te fr sls h g H). Qed.
Lemma step_dup v : fit F (v :: v :: k) fr ->
  step P (at' (II Dup :: r) (v :: k)) = Next (at' r (v :: v :: k)).
Proof. intros H. refine (go_mk F r _ _ _ te fr sls h g H). Qed.
Lemma step_swap v w : fit F (w :: v :: k) fr ->
  step P (at' (II Swap :: r) (v :: w :: k)) = Next (at' r (w :: v :: k)).
Proof. intros H. refine (go_mk F r _ _ _ te fr sls h g H). Qed.
Lemma step_pop v : fit F k fr ->
  step P (at' (II Pop :: r) (v :: k)) = Next (at' r k).
Proof. intros H. refine (go_mk F r _ _ _ te fr sls h g H). Qed.
Lemma popn_rev vs : popn (length vs) (rev vs ++ k) = Some (vs, k).
Proof.
  unfold popn. rewrite app_length, rev_length.
  rewrite (proj2 (Nat.leb_le _ _)) by lia.
  rewrite <- (rev_length vs). rewrite firstn_app, Nat.sub_diag, firstn_all, firstn_O, app_nil_r.
  rewrite rev_involutive. rewrite skipn_app, Nat.sub_diag, skipn_all. reflexivity.
Qed.
Lemma step_op o vs v : length vs = arity o -> apply_op P o vs = inl v -> fit F (v :: k) fr ->
  step P (at' (II (Op o) :: r) (rev vs ++ k)) = Next (at' r (v :: k)).
Proof.
  intros L E H. change (exec P (Op o) (map (al (fbase F)) r) (at' (II (Op o) :: r) (rev vs ++ k))
    = Next (at' r (v :: k))).
  cbn [exec]. change (stk (top (at' (II (Op o) :: r) (rev vs ++ k)))) with (rev vs ++ k).
  rewrite <- L, popn_rev, E. apply go_mk. assumption.
Qed.
Lemma step_op_err o vs e : length vs = arity o -> apply_op P o vs = inr e ->
  step P (at' (II (Op o) :: r) (rev vs ++ k)) = Done (Err e h g).
Proof.
  intros L E. change (exec P (Op o) (map (al (fbase F)) r) (at' (II (Op o) :: r) (rev vs ++ k))
    = Done (Err e h g)).
  cbn [exec]. change (stk (top (at' (II (Op o) :: r) (rev vs ++ k)))) with (rev vs ++ k).
  rewrite <- L, popn_rev, E. reflexivity.
Qed.
Lemma step_eql v c : fit F (boolv (eqlv v c) :: k) fr ->
  step P (at' (II Eql :: r) (kval c :: v :: k)) = Next (at' r (boolv (eqlv v c) :: k)).
Proof.
  intros H.
  assert (E : forall C (c : const), first_order (@kval C c) = Some c).
  { intros C. induction c0; cbn; try reflexivity. now rewrite IHc0_1, IHc0_2. }
  assert (E2 : eql2 v (kval c) = eqlv v c).
  { unfold eql2. now rewrite E. }
  rewrite <- E2 in *. refine (go_mk F r _ _ _ te fr sls h g H).
Qed.
Lemma memql2_eq v ks : memql2 v (kval (fold_right KPair KNil ks)) = Some (memqlv v ks).
Proof.
  assert (E : forall C (c : const), first_order (@kval C c) = Some c).
  { intros C. induction c; cbn; try reflexivity. now rewrite IHc1, IHc2. }
  induction ks as [|c ks IH]; cbn [fold_right kval memql2 memqlv]; [reflexivity|].
  unfold eql2. rewrite E. destruct (eqlv v c); [reflexivity|exact IH].
Qed.
Lemma step_memql v ks : fit F (memqlv v ks :: k) fr ->
  step P (at' (II Memql :: r) (kval (fold_right KPair KNil ks) :: v :: k))
  = Next (at' r (memqlv v ks :: k)).
Proof.
  intros H.
  change (exec P Memql (map (al (fbase F)) r)
    (at' (II Memql :: r) (kval (fold_right KPair KNil ks) :: v :: k)) = Next (at' r (memqlv v ks :: k))).
  cbn [exec]. change (stk (top (at' (II Memql :: r) (kval (fold_right KPair KNil ks) :: v :: k))))
    with (kval (fold_right KPair KNil ks) :: v :: k).
  cbn iota. rewrite memql2_eq. apply go_mk. assumption.
Qed.
Lemma step_initbind : fit F k (O :: fr) ->
  step P (at' (II InitBind :: r) k) = Next (mk F r k te (O :: fr) sls h g).
Proof. intros H. refine (go_mk F r _ k _ te (O :: fr) sls h g H). Qed.
Lemma step_unbind n : fit F k fr ->
  step P (mk F (II Unbind :: r) k te (n :: fr) sls h g) = Next (mk F r k (skipn n te) fr sls h g).
Proof. intros H. refine (go_mk F r _ k _ (skipn n te) fr sls h g H). Qed.
Lemma step_refg x v : assoc x g = Some v -> fit F (v :: k) fr ->
  step P (at' (II (Refg x) :: r) k) = Next (at' r (v :: k)).
Proof.
  intros E H. change (exec P (Refg x) (map (al (fbase F)) r) (at' (II (Refg x) :: r) k)
    = Next (at' r (v :: k))).
  cbn [exec]. change (tglobs (at' (II (Refg x) :: r) k)) with g. rewrite E. apply go_mk. assumption.
Qed.
Lemma step_refg_err x : assoc x g = None ->
  step P (at' (II (Refg x) :: r) k) = Done (Err (Void x) h g).
Proof.
  intros E. change (exec P (Refg x) (map (al (fbase F)) r) (at' (II (Refg x) :: r) k)
    = Done (Err (Void x) h g)).
  cbn [exec]. change (tglobs (at' (II (Refg x) :: r) k)) with g. rewrite E. reflexivity.
Qed.
Lemma step_setg x v w : assoc x g = Some w -> fit F k fr ->
  step P (at' (II (Setg x) :: r) (v :: k)) = Next (mk F r k te fr sls h (set_assoc x v g)).
Proof.
  intros E H. change (exec P (Setg x) (map (al (fbase F)) r) (at' (II (Setg x) :: r) (v :: k))
    = Next (mk F r k te fr sls h (set_assoc x v g))).
  cbn [exec]. change (tglobs (at' (II (Setg x) :: r) (v :: k))) with g.
  change (stk (top (at' (II (Setg x) :: r) (v :: k)))) with (v :: k). cbn iota.
  rewrite E. refine (go_mk F r _ k _ te fr sls h (set_assoc x v g) H).
Qed.
Lemma step_define x v : fit F (v :: k) fr ->
  step P (at' (II Define :: r) (v :: VSym x :: k))
  = Next (mk F r (v :: k) te fr sls h (set_assoc x v g)).
Proof. intros H. refine (go_mk F r _ (v :: k) _ te fr sls h (set_assoc x v g) H). Qed.
Lemma step_pushf c ms mb e f : fit F (VFun {| tcode := f; tenv := te |} :: k) fr ->
  alloc_asm heap e (Asm c ms mb) = Some f ->
  step P (at' (IBytecode (Asm c ms mb) e :: II Enclose :: r) k)
  = Next (at' r (VFun {| tcode := f; tenv := te |} :: k)).
Proof.
  intros H E. unfold alloc_asm in E.
  destruct (alloc_list (alloc_item heap e) c) as [[mc sl]|] eqn:A; [|discriminate].
  injection E as <-.
  assert (X : al (fbase F) (IBytecode (Asm c ms mb) e) = MPushF (CObj mc (pack ms mb sl))).
  { unfold al. cbn [alloc_item]. rewrite A. reflexivity. }
  unfold step. change (rst (top (at' (IBytecode (Asm c ms mb) e :: II Enclose :: r) k))) with
    (al (fbase F) (IBytecode (Asm c ms mb) e) :: MI Enclose :: map (al (fbase F)) r).
  rewrite X. refine (go_mk F r _ _ _ te fr sls h g H).
Qed.

Lemma step_jump l r2 : mfind l (map (al (fbase F)) (fC F)) = Some (map (al (fbase F)) r2) ->
  fit F k fr ->
  step P (at' (IJ Jmp l :: r) k) = Next (at' r2 k).
Proof.
  intros E H. unfold step.
  change (rst (top (at' (IJ Jmp l :: r) k))) with (MJ Jmp l :: map (al (fbase F)) r).
  cbn iota. unfold jump. change (prog (top (at' (IJ Jmp l :: r) k))) with (map (al (fbase F)) (fC F)).
  rewrite E. apply go_mk. assumption.
Qed.
(** conditional jumps: taken with [kt] on the stack, or not with [kn] *)
Definition jtaken (q : jk) (v : tval) : bool :=
  match q with Jmp => true | Jn | Jpn | Jnp => nilp v | _ => negb (nilp v) end.
Definition jstk (q : jk) (v : tval) (k : list tval) : list tval :=
  match q with
  | Jmp => v :: k
  | Jn | Jt => k
  | Jpn => if nilp v then k else v :: k
  | Jpt => if nilp v then v :: k else k
  | Jnp => if nilp v then v :: k else k
  | Jtp => if nilp v then k else v :: k
  end.
Lemma step_cjump q l r2 v :
  (jtaken q v = true -> mfind l (map (al (fbase F)) (fC F)) = Some (map (al (fbase F)) r2)) ->
  fit F (jstk q v k) fr ->
  step P (at' (IJ q l :: r) (v :: k))
  = Next (at' (if jtaken q v then r2 else r) (jstk q v k)).
Proof.
  intros E H. unfold step.
  change (rst (top (at' (IJ q l :: r) (v :: k)))) with (MJ q l :: map (al (fbase F)) r).
  cbn iota. unfold jump.
  change (prog (top (at' (IJ q l :: r) (v :: k)))) with (map (al (fbase F)) (fC F)).
  change (stk (top (at' (IJ q l :: r) (v :: k)))) with (v :: k).
  destruct q; cbn [jtaken jstk] in *; try (rewrite (E eq_refl); apply go_mk; assumption);
    destruct (nilp v); cbn [negb] in *; try (rewrite (E eq_refl)); apply go_mk; assumption.
Qed.
End Steps.

(** * Variables *)
Lemma assoc_app {A} x (a b : list (nat * A)) :
  assoc x (a ++ b) = match assoc x a with Some v => Some v | None => assoc x b end.
Proof. induction a as [|[y v] a IH]; cbn; [reflexivity|]. now destruct (Nat.eqb x y). Qed.
Lemma assoc_split x G c :
  assoc x (lex G) = Some c -> exists A l B, G = A ++ (x, c, l) :: B /\ assoc x (lex A) = None.
Proof.
  induction G as [|[[y c'] l] G IH]; cbn; [discriminate|].
  destruct (Nat.eqb x y) eqn:E.
  - apply Nat.eqb_eq in E. subst y. intros H. injection H as ->. exists [], l, G. now split.
  - intros H. destruct (IH H) as [A [l0 [B [-> N]]]]. exists ((y, c', l) :: A), l0, B.
    split; [reflexivity|]. cbn. now rewrite E.
Qed.
Lemma assoc_lex_locs x G : assoc x (lex G) = None <-> assoc x (locs G) = None.
Proof.
  induction G as [|[[y c] l] G IH]; cbn; [tauto|]. destruct (Nat.eqb x y); [split; discriminate|exact IH].
Qed.
Lemma locs_mid x A c l B : assoc x (lex A) = None -> assoc x (locs (A ++ (x, c, l) :: B)) = Some l.
Proof.
  intros N. rewrite locs_app, assoc_app. apply assoc_lex_locs in N. rewrite N. cbn.
  now rewrite Nat.eqb_refl.
Qed.
Lemma lex_mid x A c l B : assoc x (lex A) = None -> assoc x (lex (A ++ (x, c, l) :: B)) = Some c.
Proof.
  intros N. rewrite lex_app, assoc_app, N. cbn. now rewrite Nat.eqb_refl.
Qed.

Lemma henv_find j x A c l B : forall te,
  heap c = true -> assoc x (lex A) = None -> henv j (A ++ (x, c, l) :: B) te ->
  exists n hl, heap_address heap x (lex (A ++ (x, c, l) :: B)) = Some n
               /\ nth_error te n = Some hl /\ j l = Some hl.
Proof.
  induction A as [|[[y c'] l'] A IH]; cbn; intros te Hc N H.
  - rewrite Hc in *. destruct te as [|hl te]; [contradiction|]. destruct H as [H _].
    exists O, hl. rewrite Nat.eqb_refl. now repeat split.
  - destruct (Nat.eqb x y) eqn:E; [discriminate|]. destruct (heap c').
    + destruct te as [|h0 te]; [contradiction|]. destruct H as [_ H].
      destruct (IH te Hc N H) as [n [hl [E1 [E2 E3]]]].
      unfold lex in E1. rewrite E1. exists (S n), hl. now repeat split.
    + apply IH; assumption.
Qed.
Lemma henv_fun j G : forall t t', henv j G t -> henv j G t' -> t = t'.
Proof.
  induction G as [|[[y c] l] G IH]; cbn; intros t t' H H'; [congruence|].
  destruct (heap c); [|auto]. destruct t, t'; try contradiction.
  destruct H as [E H], H' as [E' H']. rewrite (IH _ _ H H'). congruence.
Qed.
Lemma henv_skip j A G : forall t, henv j (A ++ G) t -> henv j G (skipn (nheap A) t).
Proof.
  induction A as [|[[y c] l] A IH]; cbn; intros t H; [assumption|].
  destruct (heap c); [|auto]. destruct t; [contradiction|]. cbn. apply IH. apply H.
Qed.

Lemma slots_above_eq og G : slots_above heap (lex (og ++ G)) (length og) = nslots og.
Proof.
  induction og as [|[[y c] l] og IH]; cbn; [now destruct G as [|[[]]]|].
  rewrite <- IH. reflexivity.
Qed.
Lemma own_len og bg : (length (lex (og ++ bg)) - length (lex bg))%nat = length og.
Proof. unfold lex. rewrite !map_length, app_length. lia. Qed.
Lemma slot_find x A c l B bg :
  assoc x (lex A) = None ->
  slot_address heap x (lex ((A ++ (x, c, l) :: B) ++ bg)) (lex bg) = Some (nslots B).
Proof.
  intros N. unfold slot_address. rewrite own_len. induction A as [|[[y c'] l'] A IH].
  - cbn. rewrite Nat.eqb_refl. now rewrite slots_above_eq.
  - cbn in *. destruct (Nat.eqb x y); [discriminate|]. apply IH. assumption.
Qed.

Lemma nslots_app A B : nslots (A ++ B) = (nslots A + nslots B)%nat.
Proof. induction A as [|[[y c] l] A IH]; cbn; [reflexivity|]. destruct (heap c); lia. Qed.
Lemma nheap_app A B : nheap (A ++ B) = (nheap A + nheap B)%nat.
Proof. induction A as [|[[y c] l] A IH]; cbn; [reflexivity|]. destruct (heap c); lia. Qed.

Lemma nth_set_eq {A} n (v : A) l : (n < length l)%nat -> nth_error (set_nth n v l) n = Some v.
Proof. revert l. induction n as [|n IH]; intros [|x l]; cbn; try lia; [reflexivity|]. intros; apply IH; lia. Qed.
Lemma nth_set_ne {A} n m (v : A) l : n <> m -> nth_error (set_nth n v l) m = nth_error l m.
Proof.
  revert m l. induction n as [|n IH]; intros [|m] [|x l] H; cbn; try reflexivity; try congruence.
  apply IH. congruence.
Qed.
Lemma set_nth_len {A} n (v : A) l : length (set_nth n v l) = length l.
Proof. revert l. induction n as [|n IH]; intros [|x l]; cbn; try reflexivity. now rewrite IH. Qed.

Lemma slotsok_mono j j' og sls cs cs' :
  slotsok j og sls cs -> jsub j j' ->
  (forall l, In l (map snd og) -> j l = None -> j' l = None /\ nth_error cs' l = nth_error cs l) ->
  slotsok j' og sls cs'.
Proof.
  intros H J C. induction og as [|[[y c] l] og IH]; cbn in *; [trivial|].
  destruct H as [H1 H2]. split.
  - intros Hc. destruct (H1 Hc) as [N [v [v' [A [B V]]]]].
    destruct (C l (or_introl eq_refl) N) as [N' E]. split; [assumption|]. exists v, v'.
    rewrite E. repeat split; try assumption. eapply vrel_mono; eassumption.
  - apply IH; [assumption|]. intros l0 I. apply C. now right.
Qed.
Lemma slotsok_above j og sls cs i w :
  slotsok j og sls cs -> (nslots og <= i)%nat -> slotsok j og (set_nth i w sls) cs.
Proof.
  induction og as [|[[y c] l] og IH]; cbn; intros H L; [trivial|]. destruct H as [H1 H2].
  destruct (heap c).
  - split; [discriminate|]. auto.
  - split; [|apply IH; [assumption|lia]]. intros _. destruct (H1 eq_refl) as [N [v [v' [A [B V]]]]].
    split; [assumption|]. exists v, v'. rewrite nth_set_ne by lia. now repeat split.
Qed.
Lemma slotsok_set j x c l v v' B sls cs : forall A,
  slotsok j (A ++ (x, c, l) :: B) sls cs -> heap c = false -> NoDup (map snd (A ++ (x, c, l) :: B)) ->
  vrel j v v' ->
  slotsok j (A ++ (x, c, l) :: B) (set_nth (nslots B) (Some v') sls) (set_nth l v cs).
Proof.
  induction A as [|[[y c'] l'] A IH]; cbn; intros H Hc N V.
  - destruct H as [H1 H2]. inversion N as [|? ? N1 N2]; subst. split.
    + intros _. destruct (H1 Hc) as [Nj [w [w' [E1 [E2 _]]]]]. split; [assumption|].
      exists v, v'. repeat split; [| |assumption].
      * apply nth_set_eq. apply nth_error_Some. congruence.
      * apply nth_set_eq. apply nth_error_Some. congruence.
    + apply slotsok_above; [|lia]. eapply slotsok_mono; [exact H2|apply jsub_refl|].
      intros l0 I Nj. split; [assumption|]. apply nth_set_ne. congruence.
  - destruct H as [H1 H2]. inversion N as [|? ? N1 N2]; subst. split; [|apply IH; assumption].
    intros Hc'. destruct (H1 Hc') as [Nj [w [w' [E1 [E2 V']]]]]. split; [assumption|].
    exists w, w'. repeat split; [| |assumption].
    + rewrite nth_set_ne; [assumption|]. rewrite nslots_app. cbn. rewrite Hc. lia.
    + rewrite nth_set_ne; [assumption|]. intros ->. apply N1. rewrite map_app. apply in_or_app.
      right. now left.
Qed.
Lemma slotsok_in j x c l B sls cs : forall A,
  slotsok j (A ++ (x, c, l) :: B) sls cs -> heap c = false ->
  j l = None /\ exists v v', nth_error sls (nslots B) = Some (Some v') /\
     nth_error cs l = Some v /\ vrel j v v'.
Proof.
  induction A as [|[[y c'] l'] A IH]; cbn; intros [H1 H2] Hc; auto.
Qed.
Lemma slotsok_app j A B sls cs : slotsok j (A ++ B) sls cs -> slotsok j B sls cs.
Proof. induction A as [|[[y c] l] A IH]; cbn; [auto|]. intros [_ H]. auto. Qed.

(** where a variable lives *)
Lemma place F j st og bg te sls h g x i c :
  fnok F -> fbase F = lex bg -> mrel F j st og bg te sls h g ->
  assoc x (lex (og ++ bg)) = Some c ->
  In i (fC F) -> (i = ILexRef x (lex (og ++ bg)) \/ i = ILexSet x (lex (og ++ bg))) ->
  (heap c = true /\ exists n l hl,
      heap_address heap x (lex (og ++ bg)) = Some n /\ nth_error te n = Some hl /\ j l = Some hl
      /\ assoc x (locs (og ++ bg)) = Some l)
  \/ (heap c = false /\ exists A l B,
      og = A ++ (x, c, l) :: B /\ assoc x (lex A) = None
      /\ slot_address heap x (lex (og ++ bg)) (lex bg) = Some (nslots B)
      /\ assoc x (locs (og ++ bg)) = Some l).
Proof.
  intros OK Eb R A I Ei. destruct (heap c) eqn:Hc; [left|right]; (split; [reflexivity|]).
  - destruct (assoc_split _ _ _ A) as [X [l [Y [E N]]]].
    pose proof (m_env _ _ _ _ _ _ _ _ _ R) as He. rewrite E in *.
    destruct (henv_find j x X c l Y te Hc N He) as [n [hl [E1 [E2 E3]]]].
    exists n, l, hl. repeat split; try assumption. now apply locs_mid.
  - rewrite lex_app, assoc_app in A. destruct (assoc x (lex og)) as [c'|] eqn:Ao.
    + injection A as ->. destruct (assoc_split _ _ _ Ao) as [X [l [Y [-> N]]]].
      exists X, l, Y. repeat split; try assumption.
      * now apply slot_find.
      * rewrite <- app_assoc. cbn. now apply locs_mid.
    + exfalso. assert (H : heap c = true).
      { apply (f_refs _ OK). unfold refs. apply in_flat_map. exists i. split; [assumption|].
        rewrite Eb. destruct Ei as [-> | ->]; rewrite A; now left. }
      congruence.
Qed.

Lemma al_ref F x e c : assoc x e = Some c ->
  al (fbase F) (ILexRef x e) =
  match (if heap c then match heap_address heap x e with Some n => Some (MRefn n, 0) | None => None end
         else match slot_address heap x e (fbase F) with
              | Some n => Some (MSlotRef n, Z.of_nat n + 1) | None => None end)
  with Some (m, _) => m | None => MI Return end.
Proof. intros E. unfold al. cbn [alloc_item alloc_lex]. rewrite E. reflexivity. Qed.
Lemma al_set F x e c : assoc x e = Some c ->
  al (fbase F) (ILexSet x e) =
  match (if heap c then match heap_address heap x e with Some n => Some (MSetn n, 0) | None => None end
         else match slot_address heap x e (fbase F) with
              | Some n => Some (MSlotSet n, Z.of_nat n + 1) | None => None end)
  with Some (m, _) => m | None => MI Return end.
Proof. intros E. unfold al. cbn [alloc_item alloc_lex]. rewrite E. reflexivity. Qed.
Lemma al_bind F x e c : assoc x e = Some c ->
  al (fbase F) (ILexBind x e) =
  match (if heap c then Some (MBind, 0)
         else match slot_address heap x e (fbase F) with
              | Some n => Some (MSlotSet n, Z.of_nat n + 1) | None => None end)
  with Some (m, _) => m | None => MI Return end.
Proof. intros E. unfold al. cbn [alloc_item alloc_lex]. rewrite E. reflexivity. Qed.

Lemma step_ref F r k te fr sls h g j st og bg x c :
  fnok F -> fbase F = lex bg -> mrel F j st og bg te sls h g ->
  assoc x (lex (og ++ bg)) = Some c -> In (ILexRef x (lex (og ++ bg))) (fC F) ->
  exists l v v', assoc x (locs (og ++ bg)) = Some l /\ nth_error (cells st) l = Some v
    /\ vrel j v v' /\
    (fit F (v' :: k) fr ->
     step P (mk F (ILexRef x (lex (og ++ bg)) :: r) k te fr sls h g) = Next (mk F r (v' :: k) te fr sls h g)).
Proof.
  intros OK Eb R A I.
  destruct (place _ _ _ _ _ _ _ _ _ _ _ _ OK Eb R A I (or_introl eq_refl))
    as [[Hc [n [l [hl [E1 [E2 [E3 E4]]]]]]]|[Hc [X [l [Y [E1 [E2 [E3 E4]]]]]]]].
  - destruct (m_heap _ _ _ _ _ _ _ _ _ R _ _ E3) as [v [v' [N1 [N2 V]]]].
    exists l, v, v'. repeat split; try assumption. intros Ft.
    unfold step. change (rst (top (mk F (ILexRef x (lex (og ++ bg)) :: r) k te fr sls h g)))
      with (al (fbase F) (ILexRef x (lex (og ++ bg))) :: map (al (fbase F)) r).
    rewrite (al_ref F _ _ _ A), Hc, E1.
    change (env (top (mk F (ILexRef x (lex (og ++ bg)) :: r) k te fr sls h g))) with te.
    rewrite E2.
    change (hcells (mk F (ILexRef x (lex (og ++ bg)) :: r) k te fr sls h g)) with h.
    rewrite N2. refine (go_mk F r _ (v' :: k) _ te fr sls h g Ft).
  - pose proof (m_sl _ _ _ _ _ _ _ _ _ R) as SO. rewrite E1 in SO.
    destruct (slotsok_in _ _ _ _ _ _ _ _ SO Hc) as [Nj [v [v' [N1 [N2 V]]]]].
    exists l, v, v'. repeat split; try assumption. intros Ft.
    unfold step. change (rst (top (mk F (ILexRef x (lex (og ++ bg)) :: r) k te fr sls h g)))
      with (al (fbase F) (ILexRef x (lex (og ++ bg))) :: map (al (fbase F)) r).
    rewrite (al_ref F _ _ _ A), Hc, Eb, E3.
    change (slots (top (mk F (ILexRef x (lex (og ++ bg)) :: r) k te fr sls h g))) with sls.
    rewrite N1, <- Eb. refine (go_mk F r _ (v' :: k) _ te fr sls h g Ft).
Qed.

Definition put (l : nat) (v : sval) (st : sst) : sst :=
  {| cells := set_nth l v (cells st); globs := globs st |}.

Lemma step_set F r k te fr sls h g j st og bg x c v v' :
  fnok F -> fbase F = lex bg -> mrel F j st og bg te sls h g ->
  assoc x (lex (og ++ bg)) = Some c -> In (ILexSet x (lex (og ++ bg))) (fC F) ->
  vrel j v v' -> fit F k fr ->
  exists l sls1 h1, assoc x (locs (og ++ bg)) = Some l
    /\ step P (mk F (ILexSet x (lex (og ++ bg)) :: r) (v' :: k) te fr sls h g)
       = Next (mk F r k te fr sls1 h1 g)
    /\ mrel F j (put l v st) og bg te sls1 h1 g /\ ext og j st j (put l v st).
Proof.
  intros OK Eb R A I V Ft.
  destruct (place _ _ _ _ _ _ _ _ _ _ _ _ OK Eb R A I (or_intror eq_refl))
    as [[Hc [n [l [hl [E1 [E2 [E3 E4]]]]]]]|[Hc [X [l [Y [E1 [E2 [E3 E4]]]]]]]].
  - destruct (m_heap _ _ _ _ _ _ _ _ _ R _ _ E3) as [w [w' [N1 [N2 W]]]].
    exists l, sls, (set_nth hl v' h). split; [assumption|]. split; [|split].
    + unfold step. change (rst (top (mk F (ILexSet x (lex (og ++ bg)) :: r) (v' :: k) te fr sls h g)))
        with (al (fbase F) (ILexSet x (lex (og ++ bg))) :: map (al (fbase F)) r).
      rewrite (al_set F _ _ _ A), Hc, E1.
      change (env (top (mk F (ILexSet x (lex (og ++ bg)) :: r) (v' :: k) te fr sls h g))) with te.
      rewrite E2.
      change (stk (top (mk F (ILexSet x (lex (og ++ bg)) :: r) (v' :: k) te fr sls h g))) with (v' :: k).
      refine (go_mk F r _ k _ te fr sls (set_nth hl v' h) g Ft).
    + destruct R as [R1 R2 R3 R4 R5 R6 R7 R8]. constructor; try assumption.
      * eapply slotsok_mono; [exact R2|apply jsub_refl|]. intros l0 I0 Nj. split; [assumption|].
        cbn. apply nth_set_ne. congruence.
      * cbn. rewrite set_nth_len. assumption.
      * intros l0 hl0 J0. destruct (R5 _ _ J0) as [u [u' [U1 [U2 U]]]].
        destruct (Nat.eq_dec l l0) as [<-|Nl].
        -- exists v, v'. replace hl0 with hl in * by congruence. cbn. repeat split; try assumption;
             apply nth_set_eq; apply nth_error_Some; congruence.
        -- exists u, u'. cbn. rewrite nth_set_ne by assumption.
           rewrite nth_set_ne; [now repeat split|]. intros ->. apply Nl. now apply (R6 _ _ hl0).
    + constructor; cbn; auto using jsub_refl. { now rewrite set_nth_len. }
      intros l0 L0 J0 N0. apply nth_set_ne. congruence.
  - pose proof (m_sl _ _ _ _ _ _ _ _ _ R) as SO. rewrite E1 in SO.
    destruct (slotsok_in _ _ _ _ _ _ _ _ SO Hc) as [Nj [w [w' [N1 [N2 W]]]]].
    exists l, (set_nth (nslots Y) (Some v') sls), h. split; [assumption|]. split; [|split].
    + unfold step. change (rst (top (mk F (ILexSet x (lex (og ++ bg)) :: r) (v' :: k) te fr sls h g)))
        with (al (fbase F) (ILexSet x (lex (og ++ bg))) :: map (al (fbase F)) r).
      rewrite (al_set F _ _ _ A), Hc, Eb, E3.
      change (slots (top (mk F (ILexSet x (lex (og ++ bg)) :: r) (v' :: k) te fr sls h g))) with sls.
      change (stk (top (mk F (ILexSet x (lex (og ++ bg)) :: r) (v' :: k) te fr sls h g))) with (v' :: k).
      cbn iota.
      assert (L : (nslots Y < length sls)%nat) by (apply nth_error_Some; congruence).
      rewrite (proj2 (Nat.ltb_lt _ _) L). rewrite <- Eb.
      refine (go_mk F r _ k _ te fr (set_nth (nslots Y) (Some v') sls) h g Ft).
    + destruct R as [R1 R2 R3 R4 R5 R6 R7 R8]. constructor; try assumption.
      * rewrite E1 in *. apply slotsok_set; assumption.
      * cbn. rewrite set_nth_len. assumption.
      * intros l0 hl0 J0. destruct (R5 _ _ J0) as [u [u' [U1 [U2 U]]]].
        exists u, u'. cbn. rewrite nth_set_ne by congruence. now repeat split.
      * now rewrite set_nth_len.
    + constructor; cbn; auto using jsub_refl. { now rewrite set_nth_len. }
      intros l0 L0 J0 N0. apply nth_set_ne. intros ->. apply N0. rewrite E1, map_app.
      apply in_or_app. right. now left.
Qed.

Lemma step_bind F r k te n fr sls h g j st og bg x c l v v' :
  fnok F -> fbase F = lex bg -> mrel F j st og bg te sls h g ->
  In (ILexBind x (lex (((x, c, l) :: og) ++ bg))) (fC F) ->
  nth_error (cells st) l = Some v -> vrel j v v' -> j l = None -> ~ In l (map snd og) ->
  fit F k (n :: fr) ->
  exists te1 sls1 h1 j1,
    step P (mk F (ILexBind x (lex (((x, c, l) :: og) ++ bg)) :: r) (v' :: k) te (n :: fr) sls h g)
    = Next (mk F r k te1 ((nheap [(x, c, l)] + n)%nat :: fr) sls1 h1 g)
    /\ mrel F j1 st ((x, c, l) :: og) bg te1 sls1 h1 g
    /\ jsub j j1 /\ (forall l', l' <> l -> j1 l' = j l').
Proof.
  intros OK Eb R I Nc V Nj Nl Ft.
  assert (A : assoc x (lex (((x, c, l) :: og) ++ bg)) = Some c) by (cbn; now rewrite Nat.eqb_refl).
  assert (Ll : (l < length (cells st))%nat) by (apply nth_error_Some; congruence).
  destruct (heap c) eqn:Hc.
  - set (j1 := fun y => if Nat.eqb y l then Some (length h) else j y).
    assert (Jl : j1 l = Some (length h)) by (unfold j1; now rewrite Nat.eqb_refl).
    assert (Jo : forall l', l' <> l -> j1 l' = j l').
    { intros l' N. unfold j1. destruct (Nat.eqb l' l) eqn:E; [apply Nat.eqb_eq in E; congruence|reflexivity]. }
    assert (Js : jsub j j1).
    { intros l' hl E. rewrite Jo; [assumption|congruence]. }
    exists (length h :: te), sls, (h ++ [v']), j1.
    cbn [nheap]. rewrite Hc. split; [|split; [|split; assumption]].
    + unfold step.
      change (rst (top (mk F (ILexBind x (lex (((x, c, l) :: og) ++ bg)) :: r) (v' :: k) te (n :: fr) sls h g)))
        with (al (fbase F) (ILexBind x (lex (((x, c, l) :: og) ++ bg))) :: map (al (fbase F)) r).
      rewrite (al_bind F _ _ _ A), Hc.
      refine (go_mk F r _ k _ (length h :: te) (S n :: fr) sls (h ++ [v']) g Ft).
    + destruct R as [R1 R2 R3 R4 R5 R6 R7 R8]. constructor; try assumption.
      * cbn. rewrite Hc. split; [assumption|]. eapply henv_mono; eassumption.
      * cbn. split; [intros; congruence|]. eapply slotsok_mono; [exact R2|assumption|].
        intros l0 I0 N0. split; [|reflexivity]. rewrite Jo; [assumption|congruence].
      * cbn. constructor; assumption.
      * constructor; assumption.
      * intros l0 hl0 J0. destruct (Nat.eq_dec l0 l) as [->|N0].
        -- rewrite Jl in J0. injection J0 as <-. exists v, v'. split; [assumption|].
           rewrite nth_error_app2, Nat.sub_diag by lia. split; [reflexivity|].
           eapply vrel_mono; eassumption.
        -- rewrite Jo in J0 by assumption. destruct (R5 _ _ J0) as [u [u' [U1 [U2 U]]]].
           exists u, u'. split; [assumption|]. split; [|eapply vrel_mono; eassumption].
           rewrite nth_error_app1; [assumption|]. apply nth_error_Some. congruence.
      * assert (B : forall l0 hl0, j l0 = Some hl0 -> (hl0 < length h)%nat).
        { intros l0 hl0 J0. destruct (R5 _ _ J0) as [u [u' [U1 [U2 U]]]]. apply nth_error_Some. congruence. }
        intros l0 l1 hl0 J0 J1. destruct (Nat.eq_dec l0 l) as [->|N0], (Nat.eq_dec l1 l) as [->|N1].
        -- reflexivity.
        -- rewrite Jl in J0. rewrite Jo in J1 by assumption. injection J0 as <-. apply B in J1. lia.
        -- rewrite Jl in J1. rewrite Jo in J0 by assumption. injection J1 as <-. apply B in J0. lia.
        -- rewrite Jo in J0, J1 by assumption. eapply R6; eassumption.
      * eapply grel_mono; eassumption.
  - assert (Es : slot_address heap x (lex (((x, c, l) :: og) ++ bg)) (lex bg) = Some (nslots og)).
    { apply (slot_find x [] c l og bg). reflexivity. }
    exists te, (set_nth (nslots og) (Some v') sls), h, j.
    cbn [nheap]. rewrite Hc. split; [|split; [|split; auto using jsub_refl]].
    + unfold step.
      change (rst (top (mk F (ILexBind x (lex (((x, c, l) :: og) ++ bg)) :: r) (v' :: k) te (n :: fr) sls h g)))
        with (al (fbase F) (ILexBind x (lex (((x, c, l) :: og) ++ bg))) :: map (al (fbase F)) r).
      rewrite (al_bind F _ _ _ A), Hc, Eb, Es.
      change (slots (top (mk F (ILexBind x (lex (((x, c, l) :: og) ++ bg)) :: r) (v' :: k) te (n :: fr) sls h g)))
        with sls.
      change (stk (top (mk F (ILexBind x (lex (((x, c, l) :: og) ++ bg)) :: r) (v' :: k) te (n :: fr) sls h g)))
        with (v' :: k).
      cbn iota.
      assert (L : (nslots og < length sls)%nat).
      { destruct (f_all _ OK _ I) as [m [n0 [Em Ln]]]. cbn [alloc_item alloc_lex] in Em.
        rewrite A, Hc, Eb, Es in Em. injection Em as <- <-. rewrite (m_len _ _ _ _ _ _ _ _ _ R). lia. }
      rewrite (proj2 (Nat.ltb_lt _ _) L), <- Eb. rewrite Nat.add_0_l.
      refine (go_mk F r _ k _ te (n :: fr) (set_nth (nslots og) (Some v') sls) h g Ft).
    + assert (L : (nslots og < length sls)%nat).
      { destruct (f_all _ OK _ I) as [m [n0 [Em Ln]]]. cbn [alloc_item alloc_lex] in Em.
        rewrite A, Hc, Eb, Es in Em. injection Em as <- <-. rewrite (m_len _ _ _ _ _ _ _ _ _ R). lia. }
      destruct R as [R1 R2 R3 R4 R5 R6 R7 R8]. constructor; try assumption.
      * cbn. now rewrite Hc.
      * cbn. split.
        -- intros _. split; [assumption|]. exists v, v'. repeat split; try assumption.
           now apply nth_set_eq.
        -- apply slotsok_above; [assumption|lia].
      * cbn. constructor; assumption.
      * constructor; assumption.
      * now rewrite set_nth_len.
Qed.

(** new cells of the interpreter *)
Definition more (vs : list sval) (st : sst) : sst :=
  {| cells := cells st ++ vs; globs := globs st |}.
Lemma mrel_more F j st og bg te sls h g vs :
  mrel F j st og bg te sls h g -> mrel F j (more vs st) og bg te sls h g.
Proof.
  intros [R1 R2 R3 R4 R5 R6 R7 R8]. constructor; try assumption.
  - eapply slotsok_mono; [exact R2|apply jsub_refl|]. intros l I N. split; [assumption|].
    cbn. apply nth_error_app1. rewrite Forall_forall in R4. apply in_map_iff in I.
    destruct I as [e [<- I]]. apply R4. assumption.
  - eapply Forall_impl; [|exact R4]. cbn. intros e H. rewrite app_length. lia.
  - intros l hl J. destruct (R5 _ _ J) as [v [v' [A [B V]]]]. exists v, v'.
    split; [|now split]. cbn. rewrite nth_error_app1; [assumption|]. apply nth_error_Some. congruence.
Qed.
Lemma mrel_dom F j st og bg te sls h g l :
  mrel F j st og bg te sls h g -> (length (cells st) <= l)%nat -> j l = None.
Proof.
  intros R L. destruct (j l) as [hl|] eqn:E; [|reflexivity].
  destruct (m_heap _ _ _ _ _ _ _ _ _ R _ _ E) as [v [v' [A _]]].
  assert (l < length (cells st))%nat by (apply nth_error_Some; congruence). lia.
Qed.
(** bindings dropped *)
Lemma mrel_drop F j st new og bg te te0 sls h g :
  mrel F j st (new ++ og) bg te sls h g -> henv j (og ++ bg) te0 ->
  mrel F j st og bg te0 sls h g /\ skipn (nheap new) te = te0.
Proof.
  intros [R1 R2 R3 R4 R5 R6 R7 R8] H. rewrite <- app_assoc in R1. split.
  - constructor; try assumption.
    + eapply slotsok_app; eassumption.
    + rewrite map_app in R3. clear - R3. induction (map snd new) as [|x l IH]; [assumption|].
      apply IH. now inversion R3.
    + apply Forall_app in R4. apply R4.
  - eapply henv_fun; [|exact H]. apply henv_skip. assumption.
Qed.
Lemma ext_new og new j st j1 st1 j2 st2 :
  ext og j st j1 st1 -> ext (new ++ og) j1 st1 j2 st2 ->
  Forall (fun e : entry => (length (cells st) <= snd e)%nat) new -> ext og j st j2 st2.
Proof.
  intros [A1 A2 A3 A4] [B1 B2 B3 B4] N. constructor.
  - eapply jsub_trans; eassumption.
  - intros l L. rewrite B2, A2; [reflexivity|lia|lia].
  - lia.
  - intros l L J I. rewrite B4, A4; auto; [lia|now rewrite A2|].
    rewrite map_app. intros H. apply in_app_or in H. destruct H as [H|H]; [|contradiction].
    apply in_map_iff in H. destruct H as [e [E H]]. rewrite Forall_forall in N.
    specialize (N _ H). lia.
Qed.
Lemma ext_more og j st vs : ext og j st j (more vs st).
Proof.
  constructor; cbn; auto using jsub_refl.
  - rewrite app_length. lia.
  - intros. now apply nth_error_app1.
Qed.

(** globals *)
Lemma grel_assoc j x g g' : grel j g g' ->
  match assoc x g, assoc x g' with
  | Some v, Some v' => vrel j v v' | None, None => True | _, _ => False
  end.
Proof.
  induction 1 as [|[y v] [y' v'] g g' [E V] G IH]; cbn in *; [trivial|]. subst y'.
  destruct (Nat.eqb x y); [assumption|exact IH].
Qed.
Lemma grel_set j x v v' g g' : grel j g g' -> vrel j v v' ->
  grel j (set_assoc x v g) (set_assoc x v' g').
Proof.
  intros G V. induction G as [|[y w] [y' w'] g g' [E W] G IH]; cbn in *.
  - constructor; [now split|constructor].
  - subst y'. destruct (Nat.eqb x y); constructor; try assumption; now split.
Qed.

(** * The state of the compiler along with that of the machine *)
Record at_ (F : fn) (s : cst) (r : list item) (og bg : list entry) (en : list (var * nat))
  (st : sst) (j : nat -> option nat) (k : list tval) (te fr : list nat)
  (sls : list (option tval)) (h : list tval) (g : list (var * tval)) : Prop := {
  a_ok : ok s;
  a_pos : pos F (code s) r;
  a_lex : lexb s = lex (og ++ bg);
  a_env : forall x, assoc x en = assoc x (locs (og ++ bg));
  a_rel : mrel F j st og bg te sls h g;
  a_k : Z.of_nat (length k) <= cur s;
  a_fr : Z.of_nat (length fr) <= bcur s + 1 }.
Arguments a_ok {F s r og bg en st j k te fr sls h g} _.
Arguments a_pos {F s r og bg en st j k te fr sls h g} _.
Arguments a_lex {F s r og bg en st j k te fr sls h g} _.
Arguments a_env {F s r og bg en st j k te fr sls h g} _ _.
Arguments a_rel {F s r og bg en st j k te fr sls h g} _.
Arguments a_k {F s r og bg en st j k te fr sls h g} _.
Arguments a_fr {F s r og bg en st j k te fr sls h g} _.

Definition post (eff : bool) (F : fn) (r : list item) (k : list tval) (te fr : list nat)
  (og bg : list entry) (j : nat -> option nat) (st : sst) (v : sval) (st' : sst) (M : mst) : Prop :=
  exists v' j' sls' h' g',
    M = mk F r (v' :: k) te fr sls' h' g' /\ (eff = false -> vrel j' v v')
    /\ mrel F j' st' og bg te sls' h' g' /\ ext og j st j' st'.

(** what is to be proved of a form *)
Definition SIM (m : nat) (e : exp) : Prop :=
  forall d ls own eff rf s s' F bg r r' og en st j k te fr sls h g,
  comp [] d ls rf e s = Some s' -> plain own eff rf e = true -> ls_ok own ls ->
  fnok F -> fbase F = lex bg ->
  at_ F s r og bg en st j k te fr sls h g ->
  pos F (code s') r' -> mx s' <= flim F -> bmx s' <= fblim F ->
  rok m (eval P m e en st) (mk F r k te fr sls h g) (post eff F r' k te fr og bg j st).

Lemma post_ext eff F r k te fr og bg j st j1 st1 v st2 M :
  ext og j st j1 st1 -> post eff F r k te fr og bg j1 st1 v st2 M ->
  post eff F r k te fr og bg j st v st2 M.
Proof.
  intros E [v' [j' [sls' [h' [g' [A [B [C D]]]]]]]]. exists v', j', sls', h', g'.
  split; [|split; [|split]]; try assumption. eapply ext_trans; eassumption.
Qed.
Lemma post_eff eff F r k te fr og bg j st v st2 M :
  post false F r k te fr og bg j st v st2 M -> post eff F r k te fr og bg j st v st2 M.
Proof.
  intros [v' [j' [sls' [h' [g' [A [B [C D]]]]]]]]. exists v', j', sls', h', g'.
  split; [|split; [|split]]; auto.
Qed.

Lemma ck_facts lo hi de be la s s1 : ck lo hi de be la s s1 ->
  cur s + de <= cur s1 /\ bcur s1 = bcur s + be /\ mx s <= mx s1 /\ bmx s <= bmx s1
  /\ (nlab s <= nlab s1)%nat /\ cur s1 <= mx s1 /\ bcur s1 <= bmx s1 /\ ok s1.
Proof.
  intros [O [_ A B C] D E _]. destruct O as [O1 [O2 O3]].
  repeat split; try assumption.
Qed.
Ltac kf K := let X := fresh "X" in pose proof (ck_facts _ _ _ _ _ _ _ K) as X;
  destruct X as (? & ? & ? & ? & ? & ? & ? & ?).
Lemma ck_lex0 lo hi de be s s1 : ck lo hi de be 0 s s1 -> lexb s1 = lexb s.
Proof. intros [_ _ _ _ [nl [E L]]]. now destruct nl. Qed.

Lemma at_adv lo hi de be F s s1 r r1 og bg en st st1 j j1 k k1 te fr fr1 sls sls1 h h1 g g1 :
  at_ F s r og bg en st j k te fr sls h g -> ck lo hi de be 0 s s1 -> pos F (code s1) r1 ->
  mrel F j1 st1 og bg te sls1 h1 g1 ->
  Z.of_nat (length k1) <= Z.of_nat (length k) + de ->
  Z.of_nat (length fr1) <= Z.of_nat (length fr) + be ->
  at_ F s1 r1 og bg en st1 j1 k1 te fr1 sls1 h1 g1.
Proof.
  intros [A1 A2 A3 A4 A5 A6 A7] K Q R L1 L2. kf K. constructor; try assumption; try lia.
  rewrite (ck_lex0 _ _ _ _ _ _ K). assumption.
Qed.

(** instructions emitted one by one *)
Definition pr (is : list item) (de be : Z) (s s1 : cst) : Prop :=
  code s1 = is ++ code s /\ ck 0 0 de be 0 s s1.
Lemma pr_trans i1 d1 b1 i2 d2 b2 s s1 s2 :
  pr i1 d1 b1 s s1 -> pr i2 d2 b2 s1 s2 -> pr (i2 ++ i1) (d1 + d2) (b1 + b2) s s2.
Proof.
  intros [A1 A2] [B1 B2]. split.
  - rewrite B1, A1. apply app_assoc.
  - exact (ck_trans _ _ _ _ _ _ _ _ _ _ _ A2 B2).
Qed.
Lemma pr_emit i s s1 : match i with ILbl l => (l < nlab s)%nat | _ => True end ->
  emit i s = Some s1 -> ok s -> pr [i] 0 0 s s1.
Proof.
  intros N H O. split; [now injection H as <-|].
  assert (K : CK 0 (nlab s) 0 0 0 (emit i)) by (apply CK_emit; destruct i; trivial; lia).
  destruct (K _ _ H O (le_n _)). constructor; assumption.
Qed.
Lemma pr_emiti i s s1 : emiti i s = Some s1 -> ok s -> pr [II i] 0 0 s s1.
Proof. apply pr_emit. exact I. Qed.
Lemma pr_inc n s s1 : inc n s = Some s1 -> ok s -> pr [] n 0 s s1.
Proof. intros H O. split; [now injection H as <-|]. apply CK_inc; [assumption..|lia]. Qed.
Lemma pr_dec n s s1 : 0 <= n -> dec n s = Some s1 -> ok s -> pr [] (- n) 0 s s1.
Proof. intros N H O. split; [now injection H as <-|]. apply CK_dec; [assumption..|lia]. Qed.
Lemma pr_binc s s1 : binc s = Some s1 -> ok s -> pr [] 0 1 s s1.
Proof. intros H O. split; [now injection H as <-|]. apply CK_binc; [assumption..|lia]. Qed.
Lemma pr_bdec s s1 : bdec s = Some s1 -> ok s -> pr [] 0 (-1) s s1.
Proof. intros H O. split; [now injection H as <-|]. apply CK_bdec; [assumption..|lia]. Qed.
Lemma pr_tag m s s1 : tagonly m -> m s = Some s1 -> ok s -> pr [] 0 0 s s1.
Proof.
  intros T H O. split; [rewrite (T _ _ H); reflexivity|].
  apply (CK_tagonly 0 0 m T); [assumption..|lia].
Qed.
Lemma pr_ok i d b s s1 : pr i d b s s1 -> ok s1.
Proof. intros [_ K]. apply (ck_ok _ _ _ _ _ _ _ K). Qed.
Lemma pr_const c s s1 : compile_constant c s = Some s1 -> ok s -> pr [II (Push c)] 1 0 s s1.
Proof.
  intros H O. apply seq_inv in H. destruct H as [s2 [H1 H2]].
  pose proof (pr_emiti _ _ _ H1 O) as A. exact (pr_trans _ _ _ _ _ _ _ _ _ A (pr_inc _ _ _ H2 (pr_ok _ _ _ _ _ A))).
Qed.
Lemma pr_pos F i d b s s1 r1 r : pr i d b s s1 -> pos F (code s1) r1 -> pos F (code s) r ->
  r = rev i ++ r1.
Proof.
  intros [E _] A B. rewrite E in A. apply pos_new in A. eapply pos_uniq; eassumption.
Qed.
Lemma pr_ex F i d b s s1 r1 : pr i d b s s1 -> pos F (code s1) r1 -> pos F (code s) (rev i ++ r1).
Proof. intros [E _] A. rewrite E in A. now apply pos_new. Qed.

(** ** Sizes of lists of forms *)
Definition big (e : exp) := CK_comp (S (esize e)) e (le_n _).
Lemma comp_ck d ls own eff rf e s s' :
  comp [] d ls rf e s = Some s' -> plain own eff rf e = true -> ls_ok own ls -> ok s ->
  ck (nlab s) (nlab s) 1 0 0 s s'.
Proof. intros H Hp LO O. eapply big; try eassumption; lia. Qed.
Lemma body_ck d ls own rf b s s' :
  cbody (comp [] d) ls rf b s = Some s' -> pbody plain own rf b = true -> ls_ok own ls -> ok s ->
  ck (nlab s) (nlab s) 1 0 0 s s'.
Proof.
  intros H Hp LO O. eapply (CK_body (S (bsize b)) (fun e He => CK_comp _ e He)); try eassumption; lia.
Qed.
Lemma args_ck d ls own b s s' :
  cargs (comp [] d) ls b s = Some s' -> pargs plain own b = true -> ls_ok own ls -> ok s ->
  ck (nlab s) (nlab s) (Z.of_nat (length b)) 0 0 s s'.
Proof.
  intros H Hp LO O. eapply (CK_args (S (bsize b)) (fun e He => CK_comp _ e He)); try eassumption; lia.
Qed.
Lemma first_ck d ls own k b s s' : (length b <= k)%nat ->
  cfirst (comp [] d) ls k b s = Some s' -> pargs plain own b = true -> ls_ok own ls -> ok s ->
  ck (nlab s) (nlab s) (Z.of_nat k) 0 0 s s'.
Proof.
  intros L H Hp LO O. eapply (CK_first (S (bsize b)) (fun e He => CK_comp _ e He)); try eassumption; lia.
Qed.
Lemma lambda_ck d ls own p b name s s' :
  clambda (comp [] d) ls p b name s = Some s' -> pbody plain name true b = true -> ls_ok own ls ->
  ok s -> ck (nlab s) (nlab s) 1 0 0 s s'.
Proof.
  intros H Hp LO O. eapply (CK_lambda (S (bsize b)) (fun e He => CK_comp _ e He)); try eassumption; lia.
Qed.
Lemma named_ck d ls own x b s s' :
  cbody_named (comp [] d) ls x b s = Some s' -> pnamed plain own x b = true -> ls_ok own ls ->
  ok s -> ck (nlab s) (nlab s) 1 0 0 s s'.
Proof.
  intros H Hp LO O. eapply (CK_named (S (bsize b)) (fun e He => CK_comp _ e He)); try eassumption; lia.
Qed.
Lemma lets_ck d ls own bs s s' :
  clets (comp [] d) ls bs s = Some s' -> plets plain own bs = true -> ls_ok own ls -> ok s ->
  ck (nlab s) (nlab s) 0 0 (length bs) s s'.
Proof.
  intros H Hp LO O. eapply (CK_lets (S (ksize bs)) (fun e He => CK_comp _ e He)); try eassumption; lia.
Qed.
Lemma sets_ck d ls own bs s s' :
  csets (comp [] d) ls bs s = Some s' -> precs plain own bs = true -> ls_ok own ls -> ok s ->
  ck (nlab s) (nlab s) 0 0 0 s s'.
Proof.
  intros H Hp LO O. eapply (CK_sets (S (ksize bs)) (fun e He => CK_comp _ e He)); try eassumption; lia.
Qed.
Lemma cond_ck d ls own rf el cls s s' :
  ccond (comp [] d) ls rf el cls s = Some s' -> pcond plain own rf cls = true -> ls_ok own ls -> ok s ->
  ck (nlab s) (nlab s) 0 0 0 s s'.
Proof.
  intros H Hp LO O. eapply (CK_cond (S (csize cls)) (fun e He => CK_comp _ e He)); try eassumption; lia.
Qed.
Lemma case_ck d ls own rf el df cls s s' :
  ccase (comp [] d) ls rf el df cls s = Some s' -> pcase plain own rf cls = true -> ls_ok own ls -> ok s ->
  ck (nlab s) (nlab s) 0 0 0 s s'.
Proof.
  intros H Hp LO O. eapply (CK_case (S (ksize cls)) (fun e He => CK_comp _ e He)); try eassumption; lia.
Qed.
Lemma ck_pos lo hi de be la F s s1 r1 : ck lo hi de be la s s1 -> pos F (code s1) r1 ->
  exists r, pos F (code s) r.
Proof. intros K Q. eapply pos_gr; [apply (ck_gr _ _ _ _ _ _ _ K)|exact Q]. Qed.

(** * Bodies and arguments *)
Ltac fits := split; cbn [length] in *; rewrite ?app_length in *; cbn [length] in *; lia.

Lemma rok_done m eff F r k te fr og bg j st v v' j1 st1 sls1 h1 g1 :
  (eff = false -> vrel j1 v v') -> mrel F j1 st1 og bg te sls1 h1 g1 -> ext og j st j1 st1 ->
  rok m (RVal v st1) (mk F r (v' :: k) te fr sls1 h1 g1) (post eff F r k te fr og bg j st).
Proof.
  intros V R E. apply rok_val. exists v', j1, sls1, h1, g1.
  split; [reflexivity|split; [|split]]; assumption.
Qed.
Lemma rok_ext m r M eff F r1 k te fr og bg j st j1 st1 :
  ext og j st j1 st1 -> rok m r M (post eff F r1 k te fr og bg j1 st1) ->
  rok m r M (post eff F r1 k te fr og bg j st).
Proof. intros E. apply rok_imp. intros v st2 M2. apply post_ext. assumption. Qed.

Ltac sq C s1 C1 := apply seq_inv in C; destruct C as [s1 [C1 C]].
Ltac ands H := repeat match type of H with _ && _ = true =>
  let X := fresh "Hp" in apply andb_prop in H; destruct H as [H X] end.
Ltac prs R := destruct R as [? R]; kf R.

Lemma sim_body m b : Forall (SIM m) b ->
  forall d ls own rf s s' F bg r r' og en st j k te fr sls h g,
  cbody (comp [] d) ls rf b s = Some s' -> pbody plain own rf b = true -> ls_ok own ls ->
  fnok F -> fbase F = lex bg ->
  at_ F s r og bg en st j k te fr sls h g ->
  pos F (code s') r' -> mx s' <= flim F -> bmx s' <= fblim F ->
  rok m (evbody (eval P m) b en st) (mk F r k te fr sls h g) (post false F r' k te fr og bg j st).
Proof.
  intros IH. induction b as [|e b IHb]; intros d ls own rf s s' F bg r r' og en st j k te fr sls h g
    C Hp LO OK Eb A Q L1 L2.
  - cbn [cbody] in C. pose proof (pr_const _ _ _ C (a_ok A)) as Pr.
    rewrite (pr_pos _ _ _ _ _ _ _ _ Pr Q (a_pos A)).
    destruct A. prs Pr. cbn [rev app].
    eapply rok_step; [apply step_push; fits|]. apply (rok_done m false F r' k te fr og bg j st VNil VNil j); auto using ext_refl.
    constructor.
  - inversion IH as [|? ? He Hb]; subst. destruct b as [|e2 b].
    + cbn in C, Hp. exact (He _ _ _ _ _ _ _ _ _ _ _ _ _ _ _ _ _ _ _ _ _ C Hp LO OK Eb A Q L1 L2).
    + change (cbody (comp [] d) ls rf (e :: e2 :: b)) with
        (comp [] d ls false e ;; emiti Pop ;; dec 1 ;; cbody (comp [] d) ls rf (e2 :: b)) in C.
      change (pbody plain own rf (e :: e2 :: b)) with
        (plain own true false e && pbody plain own rf (e2 :: b)) in Hp.
      ands Hp. sq C s1 C1. sq C s2 C2. sq C s3 C3.
      pose proof (comp_ck _ _ _ _ _ _ _ _ C1 Hp LO (a_ok A)) as K1. kf K1.
      pose proof (pr_emiti _ _ _ C2 ltac:(assumption)) as R2.
      pose proof (pr_dec 1 _ _ ltac:(lia) C3 (pr_ok _ _ _ _ _ R2)) as R3.
      pose proof (pr_trans _ _ _ _ _ _ _ _ _ R2 R3) as R. cbn [app] in R. clear R2 R3.
      pose proof (proj2 R) as K2. kf K2.
      pose proof (body_ck _ _ _ _ _ _ _ C Hp0 LO ltac:(assumption)) as K3. kf K3.
      destruct (ck_pos _ _ _ _ _ _ _ _ _ K3 Q) as [r3 Q3].
      pose proof (pr_ex _ _ _ _ _ _ _ R Q3) as Q1. cbn [rev app] in Q1.
      change (evbody (eval P m) (e :: e2 :: b) en st) with
        (match eval P m e en st with
         | RVal _ s => evbody (eval P m) (e2 :: b) en s | RErr e s => RErr e s | ROut => ROut end).
      eapply rok_bind with (f := fun _ s => evbody (eval P m) (e2 :: b) en s).
      { eapply He; try eassumption; lia. }
      intros v st1 M1 [v' [j1 [sls1 [h1 [g1 [-> [_ [Rm E]]]]]]]].
      assert (A1 : at_ F s1 (II Pop :: r3) og bg en st1 j1 (v' :: k) te fr sls1 h1 g1).
      { eapply at_adv; [exact A|exact K1|exact Q1|exact Rm|cbn [length]; lia..]. }
      assert (A3 : at_ F s3 r3 og bg en st1 j1 k te fr sls1 h1 g1).
      { eapply at_adv; [exact A1|exact K2|exact Q3|exact Rm|cbn [length]; lia..]. }
      pose proof (a_k A3). pose proof (a_fr A3).
      eapply rok_step; [apply step_pop; fits|].
      eapply rok_ext; [exact E|]. eapply IHb; eassumption.
Qed.

Lemma sim_args m b : Forall (SIM m) b ->
  forall d ls own s s' F bg r r' og en st j k te fr sls h g K Q0,
  cargs (comp [] d) ls b s = Some s' -> pargs plain own b = true -> ls_ok own ls ->
  fnok F -> fbase F = lex bg ->
  at_ F s r og bg en st j k te fr sls h g ->
  pos F (code s') r' -> mx s' <= flim F -> bmx s' <= fblim F ->
  (forall vs vs' st1 j1 sls1 h1 g1,
     Forall2 (vrel j1) vs vs' -> length vs = length b ->
     at_ F s' r' og bg en st1 j1 (rev vs' ++ k) te fr sls1 h1 g1 -> ext og j st j1 st1 ->
     rok m (K vs st1) (mk F r' (rev vs' ++ k) te fr sls1 h1 g1) Q0) ->
  rok m (evals (eval P m) b en st K) (mk F r k te fr sls h g) Q0.
Proof.
  intros IH. induction b as [|e b IHb]; intros d ls own s s' F bg r r' og en st j k te fr sls h g K Q0
    C Hp LO OK Eb A Q L1 L2 HK.
  - cbn [cargs] in C. injection C as <-. assert (r = r') by exact (pos_uniq _ _ _ _ (a_pos A) Q). subst r'.
    cbn [evals]. apply (HK [] [] st j sls h g); [constructor|reflexivity|exact A|apply ext_refl].
  - inversion IH as [|? ? He Hb]; subst. cbn [cargs] in C. cbn [pargs] in Hp.
    ands Hp. sq C s1 C1.
    pose proof (comp_ck _ _ _ _ _ _ _ _ C1 Hp LO (a_ok A)) as K1. kf K1.
    pose proof (args_ck _ _ _ _ _ _ C Hp0 LO ltac:(assumption)) as K2. kf K2.
    destruct (ck_pos _ _ _ _ _ _ _ _ _ K2 Q) as [r1 Q1].
    cbn [evals].
    eapply rok_bind with (f := fun v s => evals (eval P m) b en s (fun vs s => K (v :: vs) s)).
    { eapply He; try eassumption; lia. }
    intros v st1 M1 [v' [j1 [sls1 [h1 [g1 [-> [V [Rm E]]]]]]]]. specialize (V eq_refl).
    assert (A1 : at_ F s1 r1 og bg en st1 j1 (v' :: k) te fr sls1 h1 g1).
    { eapply at_adv; [exact A|exact K1|exact Q1|exact Rm|cbn [length]; lia..]. }
    eapply (IHb Hb) with (K := fun vs s => K (v :: vs) s); try eassumption.
    intros vs vs' st2 j2 sls2 h2 g2 VS Lv A2 E2.
    specialize (HK (v :: vs) (v' :: vs') st2 j2 sls2 h2 g2). cbn [rev] in HK.
    rewrite <- app_assoc in HK. cbn [app] in HK. apply HK.
    + constructor; [eapply vrel_mono; [apply (e_sub _ _ _ _ _ E2)|exact V]|assumption].
    + cbn. now rewrite Lv.
    + assumption.
    + eapply ext_trans; eassumption.
Qed.

(** * Parameters *)
Definition pvals {C} (p : params) (vs : list (val C)) : list (val C) :=
  let n1 := length (req p) in
  let n2 := length (opt p) in
  firstn n1 vs ++ first_args n2 (skipn n1 vs)
  ++ match rest p with Some _ => [listv (skipn n2 (skipn n1 vs))] | None => [] end.

Lemma first_args_len {C} n : forall vs : list (val C), length (first_args n vs) = n.
Proof. induction n as [|n IH]; intros [|v vs]; cbn; try reflexivity; now rewrite IH. Qed.
Lemma params_opt_eq {C} r os : forall vs : list (val C),
  params_opt os r vs =
  combine (os ++ match r with Some x => [x] | None => [] end)
    (first_args (length os) vs ++ match r with Some _ => [listv (skipn (length os) vs)] | None => [] end).
Proof.
  induction os as [|x os IH]; intros vs; cbn.
  - destruct r; reflexivity.
  - destruct vs as [|v vs]; cbn; rewrite IH; [|reflexivity].
    f_equal. f_equal. f_equal. destruct r; [|reflexivity]. do 2 f_equal. now destruct (length os).
Qed.
Lemma params_req_eq {C} p xs : forall vs : list (val C),
  params_req xs p vs =
  if (length xs <=? length vs)%nat
  then Some (combine xs (firstn (length xs) vs) ++ params_opt (opt p) (rest p) (skipn (length xs) vs))
  else None.
Proof.
  induction xs as [|x xs IH]; intros vs; cbn; [reflexivity|]. destruct vs as [|v vs]; [reflexivity|].
  rewrite IH. cbn. destruct (_ <=? _)%nat; reflexivity.
Qed.
Lemma combine_app {A B} (a a' : list A) : forall (b b' : list B), length a = length b ->
  combine (a ++ a') (b ++ b') = combine a b ++ combine a' b'.
Proof.
  induction a as [|x a IH]; intros [|y b] b' L; cbn in *; try discriminate; [reflexivity|].
  rewrite IH; [reflexivity|congruence].
Qed.
Lemma bind_params_eq {C} p (vs : list (val C)) :
  bind_params p vs =
  if (length (req p) <=? length vs)%nat then Some (combine (lambda_vars p) (pvals p vs)) else None.
Proof.
  unfold bind_params. rewrite params_req_eq. destruct (_ <=? _)%nat eqn:E; [|reflexivity].
  apply Nat.leb_le in E. unfold lambda_vars, pvals. rewrite combine_app.
  - f_equal. f_equal. apply params_opt_eq.
  - rewrite firstn_length. lia.
Qed.
Lemma pvals_len {C} p (vs : list (val C)) : (length (req p) <= length vs)%nat ->
  length (pvals p vs) = length (lambda_vars p).
Proof.
  intros L. unfold pvals, lambda_vars. rewrite !app_length, first_args_len, firstn_length.
  destruct (rest p); cbn; lia.
Qed.
Lemma firstn_rel {A B} (R : A -> B -> Prop) n : forall a b, Forall2 R a b -> Forall2 R (firstn n a) (firstn n b).
Proof. induction n as [|n IH]; intros a b H; cbn; [constructor|]. destruct H; constructor; auto. Qed.
Lemma skipn_rel {A B} (R : A -> B -> Prop) n : forall a b, Forall2 R a b -> Forall2 R (skipn n a) (skipn n b).
Proof. induction n as [|n IH]; intros a b H; cbn; [assumption|]. destruct H; [constructor|auto]. Qed.
Lemma first_args_rel j n : forall a b, Forall2 (vrel j) a b ->
  Forall2 (vrel j) (first_args n a) (first_args n b).
Proof.
  induction n as [|n IH]; intros a b H; cbn; [constructor|].
  destruct H; constructor; auto; constructor.
Qed.
Lemma pvals_rel j p vs vs' : Forall2 (vrel j) vs vs' -> Forall2 (vrel j) (pvals p vs) (pvals p vs').
Proof.
  intros H. unfold pvals. apply Forall2_app; [|apply Forall2_app].
  - now apply firstn_rel.
  - apply first_args_rel. now apply skipn_rel.
  - destruct (rest p); [|constructor]. constructor; [|constructor]. apply vrel_listv.
    apply skipn_rel. now apply skipn_rel.
Qed.

Lemma bind_all_eq bs : forall en st,
  bind_all bs en st =
  (rev (combine (map fst bs) (List.seq (length (cells st)) (length bs))) ++ en, more (map snd bs) st).
Proof.
  induction bs as [|[x v] bs IH]; intros en st; cbn [bind_all map fst snd length List.seq combine rev].
  - cbn. unfold more. rewrite app_nil_r. now destruct st.
  - rewrite IH. unfold more. cbn [cells globs]. rewrite app_length. cbn [length].
    rewrite Nat.add_1_r. f_equal; [rewrite <- app_assoc; reflexivity|].
    rewrite <- app_assoc. reflexivity.
Qed.
Lemma combine_fst {A B} : forall (a : list A) (b : list B), length a = length b -> map fst (combine a b) = a.
Proof. induction a as [|x a IH]; intros [|y b] L; cbn in *; try discriminate; [reflexivity|]. f_equal. apply IH. congruence. Qed.
Lemma combine_snd {A B} : forall (a : list A) (b : list B), length a = length b -> map snd (combine a b) = b.
Proof. induction a as [|x a IH]; intros [|y b] L; cbn in *; try discriminate; [reflexivity|]. f_equal. apply IH. congruence. Qed.
Lemma combine_rev {A B} : forall (a : list A) (b : list B), length a = length b ->
  rev (combine a b) = combine (rev a) (rev b).
Proof.
  induction a as [|x a IH]; intros [|y b] L; cbn in *; try discriminate; [reflexivity|].
  rewrite IH by congruence. rewrite combine_app; [reflexivity|]. rewrite !rev_length. congruence.
Qed.
Lemma distinct_nodup xs : distinct xs = true -> NoDup xs.
Proof.
  induction xs as [|x xs IH]; cbn; intros H; constructor.
  - ands H. intros I. apply negb_true_iff in H.
    assert (existsb (Nat.eqb x) xs = true); [|congruence].
    apply existsb_exists. exists x. split; [assumption|apply Nat.eqb_refl].
  - ands H. auto.
Qed.
Lemma assoc_in {A} x (l : list (nat * A)) : assoc x l = None <-> ~ In x (map fst l).
Proof.
  induction l as [|[y v] l IH]; cbn; [tauto|]. destruct (Nat.eqb x y) eqn:E.
  - apply Nat.eqb_eq in E. split; [discriminate|]. intros H. exfalso. apply H. now left.
  - rewrite IH. apply Nat.eqb_neq in E. split; intros H; [intros [I|I]; [congruence|tauto]|tauto].
Qed.
Lemma assoc_rev {A} x (l : list (nat * A)) : NoDup (map fst l) -> assoc x (rev l) = assoc x l.
Proof.
  induction l as [|[y v] l IH]; cbn; [reflexivity|]. intros N. inversion N as [|? ? N1 N2]; subst.
  rewrite assoc_app, IH by assumption. cbn. destruct (Nat.eqb x y) eqn:E.
  - apply Nat.eqb_eq in E. subst y. apply assoc_in in N1. now rewrite N1.
  - now destruct (assoc x l).
Qed.

(** ** Bindings are made *)
Lemma bind_vars_code xs : forall s s', bind_vars xs s = Some s' -> exists new, code s' = new ++ code s.
Proof.
  induction xs as [|y xs IH]; intros s s' C.
  - injection C as <-. exists []. reflexivity.
  - cbn [bind_vars] in C. sq C s1 C1. sq C s2 C2. sq C s3 C3. destruct (IH _ _ C) as [new E].
    injection C1 as <-. unfold emit_binding in C2. injection C2 as <-. injection C3 as <-.
    rewrite E. eexists (new ++ [_]). rewrite <- app_assoc. reflexivity.
Qed.
Lemma bind_sim xs : forall s s' F bg r r' og st j k ks lo vs te n fr sls h g,
  bind_vars xs s = Some s' -> fnok F -> fbase F = lex bg -> lexb s = lex (og ++ bg) ->
  pos F (code s) r -> pos F (code s') r' -> mrel F j st og bg te sls h g ->
  Forall2 (vrel j) vs ks -> length lo = length xs -> length ks = length xs ->
  Forall2 (fun l v => nth_error (cells st) l = Some v) lo vs -> NoDup lo ->
  (forall l, In l lo -> j l = None /\ ~ In l (map snd og)) -> fit F (ks ++ k) (n :: fr) ->
  exists new te1 sls1 h1 j1 m,
    steps m (mk F r (ks ++ k) te (n :: fr) sls h g)
            (mk F r' k te1 ((nheap new + n)%nat :: fr) sls1 h1 g)
    /\ lexb s' = lex (new ++ og ++ bg) /\ locs new = rev (combine xs lo)
    /\ mrel F j1 st (new ++ og) bg te1 sls1 h1 g
    /\ jsub j j1 /\ (forall l, ~ In l lo -> j1 l = j l).
Proof.
  induction xs as [|x xs IH]; intros s s' F bg r r' og st j k ks lo vs te n fr sls h g
    C OK Eb El Q Q' R V Ll Lk Nc ND Nj Ft.
  - injection C as <-. destruct ks; [|discriminate]. destruct lo; [|discriminate].
    rewrite (pos_uniq _ _ _ _ Q Q'). exists [], te, sls, h, j, O. split; [constructor|].
    split; [assumption|]. split; [reflexivity|]. split; [assumption|]. split; [apply jsub_refl|auto].
  - destruct ks as [|v' ks]; [discriminate|]. destruct lo as [|l lo]; [discriminate|].
    inversion V as [|v ? vs0 ? V1 V2]; subst. inversion Nc as [|? ? ? ? Nc1 Nc2]; subst.
    inversion ND as [|? ? ND1 ND2]; subst. cbn [length] in *.
    cbn [bind_vars] in C. sq C s1 C1. sq C s2 C2. sq C s3 C3.
    injection C1 as <-. unfold emit_binding in C2. injection C2 as <-. injection C3 as <-.
    set (c := ncell s) in *.
    set (t := set_stack _ _ _) in C.
    assert (El' : lexb t = lex (((x, c, l) :: og) ++ bg)) by (cbn; now rewrite El).
    assert (Ec : code t = ILexBind x (lex (((x, c, l) :: og) ++ bg)) :: code s).
    { cbn. now rewrite El. }
    assert (Qt : exists rt, pos F (code t) rt).
    { destruct (bind_vars_code _ _ _ C) as [nw E]. rewrite E in Q'. eexists. apply pos_new. exact Q'. }
    destruct Qt as [rt Qt]. pose proof Qt as Qr. rewrite Ec in Qr. apply pos_cons in Qr.
    rewrite (pos_uniq _ _ _ _ Q Qr).
    destruct (Nj l (or_introl eq_refl)) as [Nj1 Nj2].
    destruct (step_bind F rt (ks ++ k) te n fr sls h g j st og bg x c l v v' OK Eb R
      (pos_in _ _ _ _ Qr) Nc1 V1 Nj1 Nj2) as [te1 [sls1 [h1 [j1 [St [R1 [J1 J2]]]]]]].
    { destruct Ft as [F1 F2]. split; [cbn [length app] in F1 |- *; lia|assumption]. }
    destruct (IH t s' F bg rt r' ((x, c, l) :: og) st j1 k ks lo vs0 te1
                 (nheap [(x, c, l)] + n)%nat fr sls1 h1 g C OK Eb El' Qt Q' R1)
      as [new [te2 [sls2 [h2 [j2 [m [St2 [E1 [E2 [R2 [J3 J4]]]]]]]]]]].
    + eapply vrels_mono; eassumption.
    + lia.
    + lia.
    + assumption.
    + assumption.
    + intros l0 I0. destruct (Nj l0 (or_intror I0)) as [A B].
      assert (l0 <> l) by congruence. rewrite J2 by assumption. split; [assumption|].
      cbn. intros [I1|I1]; [congruence|contradiction].
    + destruct Ft as [F1 F2]. split; [cbn [length app] in F1; lia|]. cbn [length] in *. assumption.
    + exists (new ++ [(x, c, l)]), te2, sls2, h2, j2, (S m). split; [|split; [|split; [|split; [|split]]]].
      * econstructor; [exact St|]. rewrite nheap_app.
        replace (nheap new + nheap [(x, c, l)] + n)%nat with (nheap new + (nheap [(x, c, l)] + n))%nat by lia.
        exact St2.
      * rewrite E1. rewrite <- app_assoc. reflexivity.
      * rewrite locs_app, E2. cbn. reflexivity.
      * rewrite <- app_assoc. exact R2.
      * eapply jsub_trans; eassumption.
      * intros l0 N0. rewrite J4, J2; [reflexivity|..].
        -- intros ->. apply N0. now left.
        -- intros I0. apply N0. now right.
Qed.

Lemma Forall2_length {A B} (R : A -> B -> Prop) a b : Forall2 R a b -> length a = length b.
Proof. induction 1; cbn; congruence. Qed.
Lemma Forall2_rev {A B} (R : A -> B -> Prop) a b : Forall2 R a b -> Forall2 R (rev a) (rev b).
Proof. induction 1; cbn; [constructor|]. apply Forall2_app; [assumption|]. now repeat constructor. Qed.
Lemma Forall2_impl {A B} (R R' : A -> B -> Prop) a b : (forall x y, R x y -> R' x y) -> Forall2 R a b -> Forall2 R' a b.
Proof. intros I. induction 1; constructor; auto. Qed.

Lemma enter p vs vs' s s' F bg r r' og en st j k te n fr sls h g :
  distinct (lambda_vars p) = true -> bind_vars (rev (lambda_vars p)) s = Some s' ->
  fnok F -> fbase F = lex bg ->
  at_ F s r og bg en st j (rev (pvals p vs') ++ k) te (n :: fr) sls h g ->
  Forall2 (vrel j) vs vs' -> (length (req p) <= length vs)%nat ->
  pos F (code s') r' -> mx s <= flim F -> bmx s <= fblim F ->
  exists en' st' new te1 sls1 h1 j1 m,
    bind_all (combine (lambda_vars p) (pvals p vs)) en st = (en', st')
    /\ steps m (mk F r (rev (pvals p vs') ++ k) te (n :: fr) sls h g)
               (mk F r' k te1 ((nheap new + n)%nat :: fr) sls1 h1 g)
    /\ at_ F s' r' (new ++ og) bg en' st' j1 k te1 ((nheap new + n)%nat :: fr) sls1 h1 g
    /\ ext og j st j1 st'
    /\ Forall (fun e : entry => (length (cells st) <= snd e)%nat) new.
Proof.
  intros D C OK Eb A V Lr Q L1 L2.
  assert (Lv : length (pvals p vs) = length (lambda_vars p)) by now apply pvals_len.
  pose proof (pvals_rel j p vs vs' V) as PV. set (us := pvals p vs) in *. set (us' := pvals p vs') in *.
  set (xs := lambda_vars p) in *.
  set (lo := List.seq (length (cells st)) (length xs)).
  assert (Llo : length lo = length xs) by apply seq_length.
  rewrite bind_all_eq. rewrite combine_fst, combine_snd by (symmetry; assumption).
  rewrite combine_length, Lv, Nat.min_id. fold lo.
  pose proof (mrel_more _ _ _ _ _ _ _ _ _ us (a_rel A)) as R.
  assert (Lu : length us' = length xs) by (rewrite <- Lv; symmetry; now apply Forall2_length in PV).
  destruct (bind_sim (rev xs) s s' F bg r r' og (more us st) j k (rev us') (rev lo) (rev us) te n fr sls h g
    C OK Eb (a_lex A) (a_pos A) Q R) as [new [te1 [sls1 [h1 [j1 [m [St [E1 [E2 [R1 [J1 J2]]]]]]]]]]].
  - apply Forall2_rev. assumption.
  - rewrite !rev_length. assumption.
  - rewrite !rev_length. assumption.
  - apply Forall2_rev. cbn [more cells]. clear - Llo Lv.
    subst lo. clear Llo. rewrite <- Lv. clear Lv xs.
    assert (X : forall pre, Forall2 (fun l v => nth_error (pre ++ us) l = Some v)
                (List.seq (length pre) (length us)) us).
    { induction us as [|u us IH]; intros pre; cbn; constructor.
      - rewrite nth_error_app2, Nat.sub_diag by lia. reflexivity.
      - specialize (IH (pre ++ [u])). rewrite app_length in IH. cbn in IH. rewrite Nat.add_1_r in IH.
        eapply Forall2_impl; [|exact IH]. intros l v H. cbn in H. rewrite <- app_assoc in H. exact H. }
    apply X.
  - apply NoDup_rev. apply seq_NoDup.
  - intros l I. apply in_rev in I. apply in_seq in I. split.
    + eapply mrel_dom; [exact (a_rel A)|lia].
    + intros H. pose proof (m_lt _ _ _ _ _ _ _ _ _ (a_rel A)) as Lt. apply in_map_iff in H.
      destruct H as [e [<- H]]. rewrite Forall_forall in Lt. specialize (Lt _ H). exact (Nat.lt_irrefl _ (Nat.lt_le_trans _ _ _ Lt (proj1 I))).
  - pose proof (a_k A) as X1. pose proof (a_fr A) as X2. destruct (a_ok A) as [X3 [X4 _]]. split.
    + eapply Z.le_trans; [exact X1|lia].
    + lia.
  - assert (E3 : locs new = combine xs lo).
    { rewrite E2, combine_rev, !rev_involutive; [reflexivity|]. rewrite !rev_length. congruence. }
    exists (rev (combine xs lo) ++ en), (more us st), new, te1, sls1, h1, j1, m.
    split; [reflexivity|]. split; [exact St|]. split; [|split].
    + pose proof (CK_bind_vars 0 0 _ _ _ C (a_ok A) (Nat.le_0_l _)) as K. kf K.
      constructor; try assumption.
      * rewrite <- app_assoc. assumption.
      * intros x. rewrite <- app_assoc, locs_app, E3, !assoc_app, assoc_rev.
        -- now rewrite (a_env A).
        -- rewrite combine_fst by congruence. now apply distinct_nodup.
      * pose proof (a_k A) as Ak. rewrite app_length, !rev_length, Lu in Ak. rewrite rev_length in *. lia.
      * pose proof (a_fr A). cbn [length] in *. lia.
    + constructor; [assumption|..].
      * intros l L. apply J2. intros I. apply in_rev in I. apply in_seq in I. lia.
      * cbn. rewrite app_length. lia.
      * intros l L _ _. cbn. now apply nth_error_app1.
    + apply Forall_forall. intros e I.
      assert (I2 : In (snd e) lo).
      { assert (X : map snd (locs new) = lo) by (rewrite E3; apply combine_snd; congruence).
        rewrite <- X. unfold locs. rewrite map_map. cbn. apply in_map_iff. exists e. now split. }
      apply in_seq in I2. lia.
Qed.

(** ** Arguments of a call *)
Definition seta (F : fn) (a : list tval) : fn :=
  {| fC := fC F; fbase := fbase F; fsl := fsl F; flim := flim F; fblim := fblim F;
     fargv := a; fsusp := fsusp F |}.

Lemma repeat_rev {A} n (x : A) : rev (repeat x n) = repeat x n.
Proof.
  induction n as [|n IH]; cbn; [reflexivity|]. rewrite IH. clear IH. induction n as [|n IH]; cbn; [reflexivity|].
  now rewrite IH.
Qed.
Lemma repeat_last {A} n (x : A) : repeat x n ++ [x] = x :: repeat x n.
Proof. induction n as [|n IH]; cbn; [reflexivity|]. now rewrite IH. Qed.
Lemma pr_incs i n : forall s s1, times n (emiti i ;; inc 1) s = Some s1 -> ok s ->
  pr (repeat (II i) n) (Z.of_nat n) 0 s s1.
Proof.
  induction n as [|n IH]; intros s s1 C O.
  - split; [now injection C as <-|]. apply CK_skip; [exact C|assumption|lia].
  - cbn [times] in C. sq C s2 C2. sq C2 s3 C3.
    pose proof (pr_emiti _ _ _ C3 O) as R1. pose proof (pr_inc _ _ _ C2 (pr_ok _ _ _ _ _ R1)) as R2.
    pose proof (IH _ _ C (pr_ok _ _ _ _ _ R2)) as R3.
    pose proof (pr_trans _ _ _ _ _ _ _ _ _ (pr_trans _ _ _ _ _ _ _ _ _ R1 R2) R3) as R.
    cbn [app] in R. rewrite repeat_last in R. cbn [repeat].
    replace (Z.of_nat (S n)) with (0 + 1 + Z.of_nat n) by lia. exact R.
Qed.
Lemma pr_decs i n : forall s s1, times n (emiti i ;; dec 1) s = Some s1 -> ok s ->
  pr (repeat (II i) n) (- Z.of_nat n) 0 s s1.
Proof.
  induction n as [|n IH]; intros s s1 C O.
  - split; [now injection C as <-|]. apply CK_skip; [exact C|assumption|lia].
  - cbn [times] in C. sq C s2 C2. sq C2 s3 C3.
    pose proof (pr_emiti _ _ _ C3 O) as R1.
    pose proof (pr_dec 1 _ _ ltac:(lia) C2 (pr_ok _ _ _ _ _ R1)) as R2.
    pose proof (IH _ _ C (pr_ok _ _ _ _ _ R2)) as R3.
    pose proof (pr_trans _ _ _ _ _ _ _ _ _ (pr_trans _ _ _ _ _ _ _ _ _ R1 R2) R3) as R.
    cbn [app] in R. rewrite repeat_last in R. cbn [repeat].
    replace (- Z.of_nat (S n)) with (0 + - (1) + - Z.of_nat n) by lia. exact R.
Qed.

Section Args.
Variables (F : fn) (te fr : list nat) (sls : list (option tval)) (h : list tval) (g : list (var * tval)).

Lemma req_steps n : forall vs k r, (n <= length vs)%nat ->
  Z.of_nat (length k) + Z.of_nat n <= flim F -> Z.of_nat (length fr) <= fblim F + 1 ->
  steps n (mk (seta F vs) (repeat (II RequiredArg) n ++ r) k te fr sls h g)
          (mk (seta F (skipn n vs)) r (rev (firstn n vs) ++ k) te fr sls h g).
Proof.
  induction n as [|n IH]; intros vs k r L L1 L2; [constructor|].
  destruct vs as [|v vs]; [cbn in L; lia|]. cbn [repeat app skipn firstn rev].
  econstructor.
  - refine (go_mk (seta F vs) (repeat (II RequiredArg) n ++ r) _ (v :: k) _ te fr sls h g _).
    split; [cbn [length seta flim] in *; lia|assumption].
  - rewrite <- app_assoc. cbn [app]. apply IH; cbn [length] in *; lia.
Qed.
Lemma req_fail n : forall vs k r, (length vs < n)%nat ->
  Z.of_nat (length k) + Z.of_nat n <= flim F -> Z.of_nat (length fr) <= fblim F + 1 ->
  exists m M1, steps m (mk (seta F vs) (repeat (II RequiredArg) n ++ r) k te fr sls h g) M1
               /\ step P M1 = Done (Err Missing h g).
Proof.
  induction n as [|n IH]; intros vs k r L L1 L2; [lia|].
  destruct vs as [|v vs].
  - exists O. eexists. split; [constructor|]. reflexivity.
  - destruct (IH vs (v :: k) r) as [m [M1 [St E]]]; try (cbn [length] in *; lia).
    exists (S m), M1. split; [|assumption]. cbn [repeat app]. econstructor; [|exact St].
    refine (go_mk (seta F vs) (repeat (II RequiredArg) n ++ r) _ (v :: k) _ te fr sls h g _).
    split; [cbn [length seta flim] in *; lia|assumption].
Qed.
Lemma opt_steps n : forall vs k r,
  Z.of_nat (length k) + Z.of_nat n <= flim F -> Z.of_nat (length fr) <= fblim F + 1 ->
  steps n (mk (seta F vs) (repeat (II OptionalArg) n ++ r) k te fr sls h g)
          (mk (seta F (skipn n vs)) r (rev (first_args n vs) ++ k) te fr sls h g).
Proof.
  induction n as [|n IH]; intros vs k r L1 L2; [constructor|].
  destruct vs as [|v vs]; cbn [repeat app skipn first_args rev].
  - econstructor.
    + refine (go_mk (seta F []) (repeat (II OptionalArg) n ++ r) _ (VNil :: k) _ te fr sls h g _).
      split; [cbn [length seta flim] in *; lia|assumption].
    + rewrite <- app_assoc. cbn [app]. replace (@nil tval) with (skipn n (@nil tval)) at 2 by now destruct n.
      apply IH; cbn [length] in *; lia.
  - econstructor.
    + refine (go_mk (seta F vs) (repeat (II OptionalArg) n ++ r) _ (v :: k) _ te fr sls h g _).
      split; [cbn [length seta flim] in *; lia|assumption].
    + rewrite <- app_assoc. cbn [app]. apply IH; cbn [length] in *; lia.
Qed.
Lemma rest_step vs k r : fit F (listv vs :: k) fr ->
  steps 1 (mk (seta F vs) (II RestArg :: r) k te fr sls h g)
          (mk (seta F []) r (listv vs :: k) te fr sls h g).
Proof.
  intros Ft. econstructor; [|constructor].
  refine (go_mk (seta F []) r _ (listv vs :: k) _ te fr sls h g Ft).
Qed.
End Args.

(** ** Calls *)
Lemma alloc_list_map base c : forall mc sl, alloc_list (alloc_item heap base) c = Some (mc, sl) ->
  mc = map (al base) c /\ 0 <= sl /\
  (forall i, In i c -> exists m n, alloc_item heap base i = Some (m, n) /\ n <= sl).
Proof.
  induction c as [|i c IH]; intros mc sl H.
  - injection H as <- <-. split; [reflexivity|]. split; [lia|]. intros i [].
  - change (alloc_list (alloc_item heap base) (i :: c)) with
      (match alloc_item heap base i, alloc_list (alloc_item heap base) c with
       | Some (m, n), Some (ms, k) => Some (m :: ms, Z.max n k) | _, _ => None end) in H.
    destruct (alloc_item heap base i) as [[m n]|] eqn:E; [|discriminate].
    destruct (alloc_list (alloc_item heap base) c) as [[ms k]|]; [|discriminate].
    injection H as <- <-. destruct (IH _ _ eq_refl) as [-> [L A]]. split; [|split].
    + cbn. unfold al at 2. now rewrite E.
    + lia.
    + intros i0 [<-|I]; [exists m, n; split; [assumption|lia]|].
      destruct (A _ I) as [m0 [n0 [E0 L0]]]. exists m0, n0. split; [assumption|lia].
Qed.
Lemma unpack ms mb sl : 0 <= ms < 1024 -> 0 <= mb < 1024 -> 0 <= sl ->
  Z.land (pack ms mb sl) 1023 = ms /\ Z.land (Z.shiftr (pack ms mb sl) 10) 1023 = mb
  /\ Z.shiftr (pack ms mb sl) 20 = sl.
Proof.
  intros A B C. unfold pack. rewrite !Z.shiftl_mul_pow2, !Z.shiftr_div_pow2 by lia.
  change 1023 with (Z.ones 10). rewrite !Z.land_ones by lia.
  change (2 ^ 10) with 1024. change (2 ^ 20) with 1048576.
  split; [|split].
  - rewrite (Z.add_mod (ms + mb * 1024)) by lia.
    replace (sl * 1048576) with ((sl * 1024) * 1024) by lia.
    rewrite Z.mod_mul by lia. rewrite Z.add_0_r, Z.mod_mod by lia.
    rewrite Z.mod_add by lia. apply Z.mod_small. lia.
  - replace (ms + mb * 1024 + sl * 1048576) with (ms + (mb + sl * 1024) * 1024) by lia.
    rewrite Z.div_add by lia. rewrite Z.div_small by lia. rewrite Z.add_0_l, Z.mod_add by lia.
    apply Z.mod_small. lia.
  - symmetry. apply Z.div_unique with (r := ms + mb * 1024); lia.
Qed.

Lemma lam_parts d ls p b name s s1 : lam_comp d ls p b name s = Some s1 ->
  exists lr sa tb sc sd,
    let s0 := set_counters (S (nlab s)) (ncell s) (lam_start s) in
    llabel lr = nlab s /\ lname lr = name /\ linlined lr = false
    /\ ldepth lr = match depth_of ls with Some d => (d + 1)%nat | None => O end
    /\ lambda_spec p s0 = Some sa /\ emit (ILbl (llabel lr)) sa = Some tb
    /\ cbody (comp [] d) (lr :: ls) true b tb = Some sc /\ emiti Return sc = Some sd
    /\ code s1 = code sd /\ mx s1 = mx sd /\ bmx s1 = bmx sd.
Proof.
  intros H. unfold lam_comp, with_lambda, with_label in H. unfold with_frame in H.
  match type of H with match ?m ?s with _ => _ end = _ => destruct (m s) as [sd|] eqn:E; [|discriminate] end.
  injection H as <-. sq E sa Ea. sq E tb Eb. sq E sc Ec.
  match type of Eb with emit (ILbl (llabel ?lr)) _ = _ => exists lr, sa, tb, sc, sd end.
  cbn zeta. repeat (split; [first [reflexivity|eassumption]|]). reflexivity.
Qed.

Lemma apply_sim m : (forall m', (m' < m)%nat -> forall e, SIM m' e) ->
  forall fv fv' vs vs' F bg r og st j k te fr sls h g,
  fnok F -> fbase F = lex bg -> mrel F j st og bg te sls h g ->
  vrel j fv fv' -> Forall2 (vrel j) vs vs' ->
  Z.of_nat (length k) + 1 <= flim F -> Z.of_nat (length fr) <= fblim F + 1 ->
  rok m (applyf P m fv vs st)
    (mk F (II (Call (length vs)) :: r) (rev vs' ++ fv' :: k) te fr sls h g)
    (post false F r k te fr og bg j st).
Proof.
  intros IH fv fv' vs vs' F bg r og st j k te fr sls h g OK Eb R V VS L1 L2.
  set (M0 := mk F (II (Call (length vs)) :: r) (rev vs' ++ fv' :: k) te fr sls h g).
  assert (E0 : step P M0 = exec P (Call (length vs)) (map (al (fbase F)) r) M0) by reflexivity.
  assert (Epop : popn (length vs) (stk (top M0)) = Some (vs', fv' :: k)).
  { change (stk (top M0)) with (rev vs' ++ fv' :: k).
    rewrite (Forall2_length _ _ _ VS). apply popn_rev. }
  cbn [exec] in E0. rewrite Epop in E0.
  assert (NF : match fv' with VFun _ => False | _ => True end ->
               rok m (RErr NotFun st) M0 (post false F r k te fr og bg j st)).
  { intros N. right. exists O, M0, h, g, j. split; [constructor|]. split.
    - rewrite E0. destruct fv'; try reflexivity. contradiction.
    - apply (m_glob _ _ _ _ _ _ _ _ _ R). }
  unfold applyf.
  inversion V; subst; try (apply NF; exact I). clear NF. rename H into CR. clear V.
  destruct CR as [G [CL [EN HE]]].
  destruct CL as [d [ls [own [name [s [s1 [LC [Lx [LO [PB [DI [Sm [Sb [Si [Rf [Cp AL]]]]]]]]]]]]]]]].
  unfold alloc_asm in AL.
  destruct (alloc_list (alloc_item heap (lex G)) (rev (code s1))) as [[mc sl]|] eqn:EA; [|discriminate].
  injection AL as ET.
  destruct (alloc_list_map _ _ _ _ EA) as [-> [Lsl AA]].
  destruct (lam_parts _ _ _ _ _ _ _ LC)
    as [lr [sa [sb0 [sc [sd [Ll [Ln [Li [Ld [Ca [Cb [Cc [Cd [E1 [E2 E3]]]]]]]]]]]]]]].
  set (s0 := set_counters (S (nlab s)) (ncell s) (lam_start s)) in *.
  assert (O0 : ok s0).
  { split; [|split]; cbn; try lia. constructor. }
  pose proof (CK_lambda_spec 0 0 (sp c) _ _ Ca O0 (Nat.le_0_l _)) as Ka. kf Ka.
  assert (Rb : pr [ILbl (llabel lr)] 0 0 sa sb0).
  { apply pr_emit; try assumption. cbn in *. lia. }
  pose proof (proj2 Rb) as Kb. kf Kb.
  assert (LO' : ls_ok name (lr :: ls)) by (eapply ls_ok_fun; eassumption).
  pose proof (body_ck _ _ _ _ _ _ _ Cc PB LO' ltac:(assumption)) as Kc. kf Kc.
  pose proof (pr_emiti _ _ _ Cd ltac:(assumption)) as Rd. pose proof (proj2 Rd) as Kd. kf Kd.
  assert (Mx : 0 <= mx s1 < 1024 /\ 0 <= bmx s1 < 1024) by (cbn in *; lia).
  destruct (unpack (mx s1) (bmx s1) sl) as [U1 [U2 U3]]; try lia.
  set (F1 := {| fC := rev (code s1); fbase := lex G; fsl := Z.to_nat sl; flim := mx s1; fblim := bmx s1;
                fargv := vs'; fsusp := top (mk F r k te fr sls h g) :: fsusp F |}).
  assert (OK1 : fnok F1).
  { constructor; cbn; try assumption. intros i I. destruct (AA i I) as [mi [ni [Ei Lni]]].
    exists mi, ni. split; [assumption|]. lia. }
  set (M1 := mk F1 (rev (code s1)) [] (tenv t) [O] (repeat None (Z.to_nat sl)) h g).
  assert (St : step P M0 = Next M1).
  { rewrite E0. unfold M0. rewrite (go_mk F r _ k) by (split; lia).
    rewrite <- ET. cbn [start_act]. rewrite U1, U2, U3. reflexivity. }
  assert (R1 : mrel F1 j st [] G (tenv t) (repeat None (Z.to_nat sl)) h g).
  { destruct R. constructor; try assumption; cbn; trivial; [constructor|]. apply repeat_length. }
  rewrite bind_params_eq.
  (* the arguments *)
  assert (Qd : forall a, pos (seta F1 a) (code sd) []).
  { intros a. unfold pos. cbn. now rewrite E1, app_nil_r. }
  assert (Qc : forall a, pos (seta F1 a) (code sc) [II Return]) by (intros a; apply (pr_ex _ _ _ _ _ _ _ Rd (Qd a))).
  destruct (ck_pos _ _ _ _ _ (seta F1 []) _ _ _ Kc (Qc [])) as [rb Qb].
  assert (Qb' : forall a, pos (seta F1 a) (code sb0) rb) by (intros a; exact Qb).
  assert (Qa : forall a, pos (seta F1 a) (code sa) (ILbl (llabel lr) :: rb))
    by (intros a; apply (pr_ex _ _ _ _ _ _ _ Rb (Qb' a))).
  unfold lambda_spec in Ca. sq Ca s2 C2. sq Ca s3 C3. sq Ca s4 C4.
  pose proof (pr_incs _ _ _ _ C2 O0) as P2. pose proof (proj2 P2) as K2. kf K2.
  pose proof (pr_incs _ _ _ _ C3 ltac:(assumption)) as P3. pose proof (proj2 P3) as K3. kf K3.
  assert (P4 : pr (match rest (sp c) with Some _ => [II RestArg] | None => [] end)
                  (match rest (sp c) with Some _ => 1 | None => 0 end) 0 s3 s4).
  { destruct (rest (sp c)).
    - sq C4 s5 C5. pose proof (pr_emiti _ _ _ C5 ltac:(assumption)) as X1.
      exact (pr_trans _ _ _ _ _ _ _ _ _ X1 (pr_inc _ _ _ C4 (pr_ok _ _ _ _ _ X1))).
    - injection C4 as <-. split; [reflexivity|]. apply CK_skip; [reflexivity|assumption|lia]. }
  pose proof (proj2 P4) as K4. kf K4.
  pose proof (CK_bind_vars 0 0 _ _ _ Ca ltac:(assumption) (Nat.le_0_l _)) as K5. kf K5.
  destruct (ck_pos _ _ _ _ _ (seta F1 []) _ _ _ K5 (Qa [])) as [r4 Q4].
  pose proof (pr_ex _ _ _ _ _ _ _ P4 Q4) as Q3.
  pose proof (pr_ex _ _ _ _ _ _ _ P3 Q3) as Q2.
  pose proof (pr_ex _ _ _ _ _ _ _ P2 Q2) as Q0. rewrite !repeat_rev in *.
  assert (Erev : rev (code s1) = repeat (II RequiredArg) (length (req (sp c)))
     ++ repeat (II OptionalArg) (length (opt (sp c)))
     ++ rev (match rest (sp c) with Some _ => [II RestArg] | None => [] end) ++ r4).
  { unfold pos in Q0. exact Q0. }
  unfold M1 in St. rewrite Erev in St.
  pose proof (Forall2_length _ _ _ VS) as LV.
  assert (B0 : cur s0 = 0 /\ bcur s0 = 0) by (split; reflexivity). destruct B0 as [B0 B0'].
  destruct (length (req (sp c)) <=? length vs)%nat eqn:En.
  2:{ apply Nat.leb_gt in En. right.
      destruct (req_fail F1 (tenv t) [O] (repeat None (Z.to_nat sl)) h g (length (req (sp c))) vs' []
        (repeat (II OptionalArg) (length (opt (sp c)))
         ++ rev (match rest (sp c) with Some _ => [II RestArg] | None => [] end) ++ r4))
        as [n1 [M2 [S2 E4]]].
      - lia. - cbn [length F1 flim]. lia. - cbn [length F1 fblim]. lia.
      - exists (S n1), M2, h, g, j. split; [econstructor; [exact St|exact S2]|]. split; [assumption|].
        apply (m_glob _ _ _ _ _ _ _ _ _ R). }
  apply Nat.leb_le in En.
  destruct m as [|m]. { exists O, M0. split; [lia|constructor]. }
  eapply rok_step_S; [exact St|].
  eapply rok_steps.
  { apply (req_steps F1 (tenv t) [O] (repeat None (Z.to_nat sl)) h g); [lia|cbn [length F1 flim]; lia|cbn [length F1 fblim]; lia]. }
  eapply rok_steps.
  { apply (opt_steps F1 (tenv t) [O] (repeat None (Z.to_nat sl)) h g).
    - rewrite app_nil_r, rev_length, firstn_length. cbn [F1 flim]. lia.
    - cbn [length F1 fblim]. lia. }
  set (vs2 := skipn (length (opt (sp c))) (skipn (length (req (sp c))) vs')).
  assert (Rest : exists a, steps (match rest (sp c) with Some _ => 1 | None => 0 end)
     (mk (seta F1 vs2) (rev (match rest (sp c) with Some _ => [II RestArg] | None => [] end) ++ r4)
         (rev (first_args (length (opt (sp c))) (skipn (length (req (sp c))) vs'))
          ++ rev (firstn (length (req (sp c))) vs') ++ []) (tenv t) [O] (repeat None (Z.to_nat sl)) h g)
     (mk (seta F1 a) r4 (rev (pvals (sp c) vs') ++ []) (tenv t) [O] (repeat None (Z.to_nat sl)) h g)).
  { unfold pvals. fold vs2. rewrite !app_nil_r. destruct (rest (sp c)) as [x|] eqn:Er.
    - exists []. cbn [rev app]. rewrite !rev_app_distr. cbn [rev app].
      apply rest_step. split; [|cbn [length F1 fblim]; lia].
      cbn [length F1 flim]. rewrite app_length, !rev_length, first_args_len, firstn_length. lia.
    - exists vs2. cbn [rev app]. rewrite app_nil_r, rev_app_distr. constructor. }
  destruct Rest as [a Rest].
  eapply rok_steps; [exact Rest|]. clear Rest.
  assert (Ra : mrel (seta F1 a) j st [] G (tenv t) (repeat None (Z.to_nat sl)) h g).
  { destruct R1. constructor; assumption. }
  assert (OKa : fnok (seta F1 a)) by (destruct OK1; constructor; assumption).
  assert (A4 : at_ (seta F1 a) s4 r4 [] G (senv c) st j (rev (pvals (sp c) vs') ++ []) (tenv t) [O]
                   (repeat None (Z.to_nat sl)) h g).
  { constructor; try assumption.
    - rewrite (ck_lex0 _ _ _ _ _ _ K4), (ck_lex0 _ _ _ _ _ _ K3), (ck_lex0 _ _ _ _ _ _ K2). exact Lx.
    - rewrite app_nil_r, rev_length, pvals_len by lia. unfold lambda_vars. rewrite !app_length.
      destruct (rest (sp c)); cbn [length]; lia.
    - cbn [length]. lia. }
  destruct (enter (sp c) vs vs' s4 sa (seta F1 a) G r4 (ILbl (llabel lr) :: rb) [] (senv c) st j [] (tenv t) O []
     (repeat None (Z.to_nat sl)) h g DI Ca OKa eq_refl A4 VS En (Qa a))
    as [en' [st' [new [te1 [sls1 [h1 [j1 [n1 [BA [S1 [Aa [Ex Fn]]]]]]]]]]]].
  { cbn [seta flim F1]. lia. } { cbn [seta fblim F1]. lia. }
  rewrite BA. eapply rok_steps; [exact S1|].
  pose proof (a_fr Aa) as Afr. rewrite app_nil_r in *.
  eapply rok_step; [apply step_lbl; split; cbn [length seta flim fblim F1]; lia|].
  assert (Ab : at_ (seta F1 a) sb0 rb new G en' st' j1 [] te1 [(nheap new + 0)%nat] sls1 h1 g).
  { eapply at_adv; [exact Aa|exact Kb|exact (Qb' a)|exact (a_rel Aa)|cbn [length]; lia..]. }
  assert (HB : rok m (evbody (eval P m) (sb c) en' st')
     (mk (seta F1 a) rb [] te1 [(nheap new + 0)%nat] sls1 h1 g)
     (post false (seta F1 a) [II Return] [] te1 [(nheap new + 0)%nat] new G j1 st')).
  { eapply sim_body; try eassumption.
    - apply Forall_forall. intros e _. apply IH. lia.
    - reflexivity.
    - exact (Qc a).
    - cbn [seta flim F1]. lia.
    - cbn [seta fblim F1]. lia. }
  assert (Fin : forall v st2 M2,
    post false (seta F1 a) [II Return] [] te1 [(nheap new + 0)%nat] new G j1 st' v st2 M2 ->
    rok m (RVal v st2) M2 (post false F r k te fr og bg j st)).
  { intros v st2 M2 [v' [j2 [sls2 [h2 [g2 [-> [V2 [Rm E]]]]]]]]. specialize (V2 eq_refl).
    eapply rok_step.
    { change (step P (mk (seta F1 a) [II Return] [v'] te1 [(nheap new + 0)%nat] sls2 h2 g2))
        with (go (map (al (fbase F)) r) (v' :: k) (mk F r k te fr sls h2 g2)).
      apply go_mk. split; cbn [length]; lia. }
    assert (EX : ext [] j st j2 st2).
    { eapply ext_new with (new := new); [exact Ex|rewrite app_nil_r; exact E|exact Fn]. }
    eapply rok_done; [intros _; exact V2| |].
    - destruct R as [Q1 Q2' Q3' Q4' Q5' Q6' Q7' Q8']. destruct Rm as [T1 T2 T3 T4 T5 T6 T7 T8].
      constructor; try assumption.
      + eapply henv_mono; [apply (e_sub _ _ _ _ _ EX)|assumption].
      + rewrite Forall_forall in Q4'.
        eapply slotsok_mono; [exact Q2'|apply (e_sub _ _ _ _ _ EX)|]. intros l I N.
        apply in_map_iff in I. destruct I as [e [<- I]]. specialize (Q4' _ I).
        rewrite (e_eq _ _ _ _ _ EX) by assumption. split; [assumption|].
        apply (e_cells _ _ _ _ _ EX); [assumption..|intros []].
      + eapply Forall_impl; [|exact Q4']. cbn. intros e L. pose proof (e_len _ _ _ _ _ EX). lia.
    - destruct EX as [X1 X2 X3 X4]. constructor; try assumption. intros l L N _.
      apply X4; [assumption..|intros []]. }
  destruct (evbody (eval P m) (sb c) en' st') as [v st2|e st2|]; cbn in HB |- *.
  - destruct HB as [n2 [M2 [S2 HB]]]. apply Fin in HB. eapply rok_steps in HB; [|exact S2]. exact HB.
  - exact HB.
  - exact HB.
Qed.

(** * Simple forms *)
Ltac si := intros d ls own eff rf s s' F bg r r' og en st j k te fr sls h g C Hp LO OK Eb A Q L1 L2;
  rewrite comp_eq in C; cbn zeta in C; rewrite eval_eq; cbn zeta.

Lemma sim_const m c : SIM m (EConst c).
Proof.
  si. pose proof (pr_const _ _ _ C (a_ok A)) as Pr.
  rewrite (pr_pos _ _ _ _ _ _ _ _ Pr Q (a_pos A)). pose proof (a_k A). pose proof (a_fr A).
  prs Pr. cbn [rev app].
  eapply rok_step; [apply step_push; fits|].
  apply (rok_done m eff F r' k te fr og bg j st (kval c) (kval c) j); auto using ext_refl.
  - intros _. apply vrel_kval.
  - exact (a_rel A).
Qed.

Lemma sim_var m x : SIM m (EVar x).
Proof.
  si. sq C s1 C1. unfold emit_varref in C1. pose proof (a_k A). pose proof (a_fr A).
  unfold lookup. rewrite (a_env A).
  destruct (assoc x (lexb s)) as [c|] eqn:E.
  - sq C1 s2 C2. pose proof (pr_emit (ILexRef x (lexb s)) _ _ I C2 (a_ok A)) as R1.
    pose proof (pr_tag _ _ _ (to_referenced x false) C1 (pr_ok _ _ _ _ _ R1)) as R2.
    pose proof (pr_inc _ _ _ C (pr_ok _ _ _ _ _ R2)) as R3.
    pose proof (pr_trans _ _ _ _ _ _ _ _ _ (pr_trans _ _ _ _ _ _ _ _ _ R1 R2) R3) as R.
    cbn [app] in R. pose proof (pr_pos _ _ _ _ _ _ _ _ R Q (a_pos A)) as Er. cbn [rev app] in Er. subst r.
    prs R. pose proof (pos_in _ _ _ _ (a_pos A)) as Ii. pose proof (a_lex A) as El. rewrite El in E, Ii |- *.
    destruct (step_ref F r' k te fr sls h g j st og bg x c OK Eb (a_rel A) E Ii)
      as [l [v [v' [E1 [E2 [V St]]]]]].
    rewrite E1, E2. eapply rok_step; [apply St; fits|].
    apply (rok_done m eff F r' k te fr og bg j st v v' j); auto using ext_refl. exact (a_rel A).
  - pose proof (pr_emiti _ _ _ C1 (a_ok A)) as R1.
    pose proof (pr_inc _ _ _ C (pr_ok _ _ _ _ _ R1)) as R3.
    pose proof (pr_trans _ _ _ _ _ _ _ _ _ R1 R3) as R.
    cbn [app] in R. pose proof (pr_pos _ _ _ _ _ _ _ _ R Q (a_pos A)) as Er. cbn [rev app] in Er. subst r.
    prs R. rewrite (a_lex A) in E. apply assoc_lex_locs in E. rewrite E.
    pose proof (grel_assoc _ x _ _ (m_glob _ _ _ _ _ _ _ _ _ (a_rel A))) as G.
    destruct (assoc x (globs st)) as [v|]; destruct (assoc x g) as [v'|] eqn:Eg; try contradiction.
    + eapply rok_step; [apply step_refg; [exact Eg|fits]|].
      apply (rok_done m eff F r' k te fr og bg j st v v' j); auto using ext_refl. exact (a_rel A).
    + right. eexists O, _, h, g, j. split; [constructor|]. split; [now apply step_refg_err|].
      apply (m_glob _ _ _ _ _ _ _ _ _ (a_rel A)).
Qed.

Lemma mrel_glob F j st og bg te sls h g x v v' :
  mrel F j st og bg te sls h g -> vrel j v v' ->
  mrel F j {| cells := cells st; globs := set_assoc x v (globs st) |} og bg te sls h (set_assoc x v' g)
  /\ ext og j st j {| cells := cells st; globs := set_assoc x v (globs st) |}.
Proof.
  intros [R1 R2 R3 R4 R5 R6 R7 R8] V. split.
  - constructor; try assumption. now apply grel_set.
  - constructor; cbn; auto using jsub_refl.
Qed.

Lemma varset_sim m x s s1 F bg r r1 og en st j v v' k te fr sls h g :
  emit_varset x s = Some s1 -> fnok F -> fbase F = lex bg ->
  at_ F s r og bg en st j (v' :: k) te fr sls h g -> pos F (code s1) r1 -> mx s <= flim F -> bmx s <= fblim F ->
  vrel j v v' ->
  rok m (assign x v en st) (mk F r (v' :: k) te fr sls h g)
    (fun v1 st1 M => v1 = v /\ exists sls1 h1 g1, M = mk F r1 k te fr sls1 h1 g1
       /\ mrel F j st1 og bg te sls1 h1 g1 /\ ext og j st j st1).
Proof.
  intros C OK Eb A Q L1 L2 V. unfold emit_varset in C. unfold assign. rewrite (a_env A).
  pose proof (a_k A). pose proof (a_fr A). destruct (a_ok A) as [? [? _]].
  destruct (assoc x (lexb s)) as [c|] eqn:E.
  - pose proof (pr_emit (ILexSet x (lexb s)) _ _ I C (a_ok A)) as R.
    pose proof (pr_pos _ _ _ _ _ _ _ _ R Q (a_pos A)) as Er. cbn [rev app] in Er. subst r.
    pose proof (pos_in _ _ _ _ (a_pos A)) as Ii. pose proof (a_lex A) as El. rewrite El in E, Ii |- *.
    destruct (step_set F r1 k te fr sls h g j st og bg x c v v' OK Eb (a_rel A) E Ii V)
      as [l [sls1 [h1 [E1 [St [Rm Ex]]]]]]; [fits|].
    rewrite E1. eapply rok_step; [exact St|]. apply rok_val. split; [reflexivity|].
    exists sls1, h1, g. now split.
  - pose proof (pr_emiti _ _ _ C (a_ok A)) as R.
    pose proof (pr_pos _ _ _ _ _ _ _ _ R Q (a_pos A)) as Er. cbn [rev app] in Er. subst r.
    rewrite (a_lex A) in E. apply assoc_lex_locs in E. rewrite E.
    pose proof (grel_assoc _ x _ _ (m_glob _ _ _ _ _ _ _ _ _ (a_rel A))) as G.
    destruct (assoc x (globs st)) as [w|]; destruct (assoc x g) as [w'|] eqn:Eg; try contradiction.
    + eapply rok_step; [eapply step_setg; [exact Eg|fits]|]. apply rok_val. split; [reflexivity|].
      exists sls, h, (set_assoc x v' g). split; [reflexivity|]. apply mrel_glob; [exact (a_rel A)|assumption].
    + left. reflexivity.
Qed.

Lemma sim_set m x e : SIM m e -> SIM m (ESet x e).
Proof.
  intros IH. si. sq C s1 C1. sq C s2 C2. sq C s3 C3. sq C s4 C4. sq C s5 C5.
  cbn [plain] in Hp.
  pose proof (comp_ck _ _ _ _ _ _ _ _ C1 Hp LO (a_ok A)) as K1. kf K1.
  pose proof (pr_emiti _ _ _ C2 ltac:(assumption)) as R2.
  pose proof (pr_inc _ _ _ C3 (pr_ok _ _ _ _ _ R2)) as R3.
  pose proof (pr_trans _ _ _ _ _ _ _ _ _ R2 R3) as R. clear R2 R3. cbn [app] in R. pose proof (proj2 R) as K2. kf K2.
  pose proof (CK_varset 0 0 x _ _ C4 ltac:(assumption) (Nat.le_0_l _)) as K4. kf K4.
  pose proof (pr_tag _ _ _ (to_modified x) C5 ltac:(assumption)) as R5.
  pose proof (pr_dec 1 _ _ ltac:(lia) C (pr_ok _ _ _ _ _ R5)) as R6.
  pose proof (pr_trans _ _ _ _ _ _ _ _ _ R5 R6) as R'. clear R5 R6. cbn [app] in R'. pose proof (proj2 R') as K5. kf K5.
  pose proof (pr_ex _ _ _ _ _ _ _ R' Q) as Q4. cbn [rev app] in Q4.
  destruct (ck_pos _ _ _ _ _ _ _ _ _ K4 Q4) as [r3 Q3].
  pose proof (pr_ex _ _ _ _ _ _ _ R Q3) as Q1. cbn [rev app] in Q1.
  eapply rok_bind with (f := fun v s => assign x v en s).
  { eapply IH; try eassumption; lia. }
  intros v st1 M1 [v' [j1 [sls1 [h1 [g1 [-> [V [Rm E]]]]]]]]. specialize (V eq_refl).
  assert (A1 : at_ F s1 (II Dup :: r3) og bg en st1 j1 (v' :: k) te fr sls1 h1 g1).
  { eapply at_adv; [exact A|exact K1|exact Q1|exact Rm|cbn [length]; lia..]. }
  assert (A3 : at_ F s3 r3 og bg en st1 j1 (v' :: v' :: k) te fr sls1 h1 g1).
  { eapply at_adv; [exact A1|exact K2|exact Q3|exact Rm|cbn [length]; lia..]. }
  pose proof (a_k A3). pose proof (a_fr A3).
  eapply rok_step; [apply step_dup; fits|].
  eapply rok_imp; [|eapply (varset_sim m x s3 s4); try eassumption; lia].
  intros v1 st2 M [-> [sls2 [h2 [g2 [-> [Rm2 E2]]]]]].
  exists v', j1, sls2, h2, g2. split; [reflexivity|]. split; [auto|]. split; [assumption|].
  eapply ext_trans; eassumption.
Qed.

Lemma sim_define m x e : SIM m e -> SIM m (EDefine x e).
Proof.
  intros IH. si. sq C s1 C1. sq C s2 C2. sq C s3 C3.
  cbn [plain] in Hp. ands Hp.
  pose proof (pr_const _ _ _ C1 (a_ok A)) as R1. pose proof (proj2 R1) as K1. kf K1.
  pose proof (comp_ck _ _ _ _ _ _ _ _ C2 Hp0 LO ltac:(assumption)) as K2. kf K2.
  pose proof (pr_emiti _ _ _ C3 ltac:(assumption)) as R3.
  pose proof (pr_dec 1 _ _ ltac:(lia) C (pr_ok _ _ _ _ _ R3)) as R4.
  pose proof (pr_trans _ _ _ _ _ _ _ _ _ R3 R4) as R. clear R3 R4. cbn [app] in R. pose proof (proj2 R) as K4. kf K4.
  pose proof (pr_ex _ _ _ _ _ _ _ R Q) as Q2. cbn [rev app] in Q2.
  destruct (ck_pos _ _ _ _ _ _ _ _ _ K2 Q2) as [r1 Q1].
  pose proof (pr_pos _ _ _ _ _ _ _ _ R1 Q1 (a_pos A)) as Er. cbn [rev app] in Er. subst r.
  assert (A1 : at_ F s1 r1 og bg en st j (VSym x :: k) te fr sls h g).
  { eapply at_adv; [exact A|exact K1|exact Q1|exact (a_rel A)|cbn [length]; lia..]. }
  pose proof (a_k A1). pose proof (a_fr A1).
  eapply rok_step; [apply (step_push F r1 k te fr sls h g (KSym x)); fits|].
  eapply rok_bind with (f := fun v s => RVal VUndef {| cells := cells s; globs := set_assoc x v (globs s) |}).
  { eapply IH; try eassumption; lia. }
  intros v st1 M1 [v' [j1 [sls1 [h1 [g1 [-> [V [Rm E]]]]]]]]. specialize (V eq_refl).
  eapply rok_step; [apply step_define; fits|].
  destruct (mrel_glob _ _ _ _ _ _ _ _ _ x _ _ Rm V) as [Rm2 E2].
  eapply rok_done; [intros ->; discriminate|exact Rm2|]. eapply ext_trans; eassumption.
Qed.

Lemma lambda_sim d ls own p b name s s' F bg r r' og en st j k te fr sls h g :
  clambda (comp [] d) ls p b name s = Some s' -> pbody plain name true b = true ->
  distinct (lambda_vars p) = true -> ls_ok own ls -> fnok F -> fbase F = lex bg ->
  at_ F s r og bg en st j k te fr sls h g ->
  pos F (code s') r' -> mx s' <= flim F -> bmx s' <= fblim F ->
  exists t, crel j {| sp := p; sb := b; senv := en |} t /\
    step P (mk F r k te fr sls h g) = Next (mk F r' (VFun t :: k) te fr sls h g).
Proof.
  intros C Hp D LO OK Eb A Q L1 L2.
  pose proof (lambda_ck _ _ _ _ _ _ _ _ C Hp LO (a_ok A)) as K. kf K.
  rewrite clambda_eq in C. destruct (lam_comp d ls p b name s) as [s1|] eqn:LC; [|discriminate].
  set (t0 := set_tags _ _) in C.
  sq C s2 C2. sq C s3 C3. sq C s4 C4.
  injection C2 as <-. injection C3 as <-. injection C4 as <-.
  rewrite (to_closure _ _ C) in Q.
  assert (Q0 : pos F (code s) (IBytecode (Asm (rev (code s1)) (mx s1) (bmx s1)) (lexb s) :: II Enclose :: r')).
  { apply pos_cons, pos_cons. exact Q. }
  rewrite (pos_uniq _ _ _ _ (a_pos A) Q0).
  pose proof (pos_in _ _ _ _ Q0) as Ii.
  destruct OK as [O1 O2 O3 O4].
  destruct (O1 _ Ii) as [mi [ni [Ei _]]]. cbn [alloc_item] in Ei.
  destruct (alloc_list (alloc_item heap (lexb s)) (rev (code s1))) as [[mc sl]|] eqn:EA; [|discriminate].
  rewrite forallb_forall in O4. specialize (O4 _ Ii). cbn [small_item] in O4. ands O4.
  exists {| tcode := CObj mc (pack (mx s1) (bmx s1) sl); tenv := te |}. split.
  - exists (og ++ bg). cbn [sp sb senv tcode tenv]. split; [|split].
    + rewrite <- (a_lex A). exists d, ls, own, name, s, s1.
      split; [assumption|]. split; [reflexivity|]. split; [assumption|]. split; [assumption|].
      split; [assumption|]. split; [lia|]. split; [lia|]. split; [assumption|].
      assert (X : forall c, In c (captured_item (IBytecode (Asm (rev (code s1)) (mx s1) (bmx s1)) (lexb s))) ->
                            heap c = true).
      { intros c Ic. apply O3. apply in_flat_map. eexists. split; [exact Ii|exact Ic]. }
      cbn [captured_item] in X. split; [|split].
      * intros c Ic. apply X. apply in_or_app. now left.
      * intros c Ic. apply X. apply in_or_app. now right.
      * unfold alloc_asm. rewrite EA. reflexivity.
    + exact (a_env A).
    + exact (m_env _ _ _ _ _ _ _ _ _ (a_rel A)).
  - apply step_pushf.
    + pose proof (a_k A). pose proof (a_fr A). fits.
    + unfold alloc_asm. rewrite EA. reflexivity.
Qed.

Lemma sim_lam m p b : SIM m (ELam p b).
Proof.
  si. cbn [plain] in Hp. ands Hp.
  destruct (lambda_sim _ _ _ _ _ _ _ _ _ _ _ _ _ _ _ _ _ _ _ _ _ _ C Hp0 Hp LO OK Eb A Q L1 L2)
    as [t [CR St]].
  eapply rok_step; [exact St|].
  eapply rok_done; [intros _; constructor; exact CR|exact (a_rel A)|apply ext_refl].
Qed.
Lemma sim_defun m x p b : SIM m (EDefun x p b).
Proof.
  si. sq C s1 C1. sq C s2 C2. sq C s3 C3.
  cbn [plain] in Hp. ands Hp.
  pose proof (pr_const _ _ _ C1 (a_ok A)) as R1. pose proof (proj2 R1) as K1. kf K1.
  pose proof (lambda_ck _ _ _ _ _ _ _ _ C2 Hp0 LO ltac:(assumption)) as K2. kf K2.
  pose proof (pr_emiti _ _ _ C3 ltac:(assumption)) as R3.
  pose proof (pr_dec 1 _ _ ltac:(lia) C (pr_ok _ _ _ _ _ R3)) as R4.
  pose proof (pr_trans _ _ _ _ _ _ _ _ _ R3 R4) as R. clear R3 R4. cbn [app] in R. pose proof (proj2 R) as K4. kf K4.
  pose proof (pr_ex _ _ _ _ _ _ _ R Q) as Q2. cbn [rev app] in Q2.
  destruct (ck_pos _ _ _ _ _ _ _ _ _ K2 Q2) as [r1 Q1].
  pose proof (pr_pos _ _ _ _ _ _ _ _ R1 Q1 (a_pos A)) as Er. cbn [rev app] in Er. subst r.
  assert (A1 : at_ F s1 r1 og bg en st j (VSym x :: k) te fr sls h g).
  { eapply at_adv; [exact A|exact K1|exact Q1|exact (a_rel A)|cbn [length]; lia..]. }
  pose proof (a_k A1). pose proof (a_fr A1).
  eapply rok_step; [apply (step_push F r1 k te fr sls h g (KSym x)); fits|].
  destruct (lambda_sim d ls own p b (Some x) s1 s2 F bg r1 (II Define :: r') og en st j (VSym x :: k) te fr sls h g)
    as [t [CR St]]; try assumption; try lia.
  eapply rok_step; [exact St|].
  eapply rok_step; [apply step_define; fits|].
  destruct (mrel_glob F j st og bg te sls h g x (VFun {| sp := p; sb := b; senv := en |}) (VFun t))
    as [Rm2 E2]; [exact (a_rel A)|constructor; exact CR|].
  eapply rok_done; [intros ->; discriminate|exact Rm2|exact E2].
Qed.

(** * Operations and calls *)
Lemma nil_steps F te fr sls h g r n : forall k,
  Z.of_nat (length k) + Z.of_nat n <= flim F -> Z.of_nat (length fr) <= fblim F + 1 ->
  steps n (mk F (repeat (II (Push KNil)) n ++ r) k te fr sls h g)
          (mk F r (repeat VNil n ++ k) te fr sls h g).
Proof.
  induction n as [|n IH]; intros k L1 L2; [constructor|].
  cbn [repeat app]. econstructor; [apply (step_push F _ k te fr sls h g KNil); fits|].
  replace (VNil :: repeat VNil n ++ k) with (repeat VNil n ++ VNil :: k).
  { apply IH; cbn [length]; lia. }
  change (VNil :: k) with ([VNil] ++ k). rewrite app_assoc, repeat_last. reflexivity.
Qed.
Lemma first_nil {C} n : @first_args C n [] = repeat VNil n.
Proof. induction n as [|n IH]; cbn; [reflexivity|]. now rewrite IH. Qed.

Lemma cons_steps F te fr sls h g r k : forall (ws : list tval) acc,
  Z.of_nat (length ws) + Z.of_nat (length k) + 1 <= flim F -> Z.of_nat (length fr) <= fblim F + 1 ->
  steps (length ws) (mk F (repeat (II (Op OCons)) (length ws) ++ r) (acc :: rev ws ++ k) te fr sls h g)
          (mk F r (fold_right VPair acc ws :: k) te fr sls h g).
Proof.
  intros ws. induction ws as [|w ws IH] using rev_ind; intros acc L1 L2; [constructor|].
  rewrite app_length in *. cbn [length] in *. rewrite Nat.add_1_r. cbn [repeat app].
  rewrite rev_app_distr. cbn [rev app]. rewrite fold_right_app. cbn [fold_right].
  econstructor; [|apply IH; lia].
  apply (step_op F _ (rev ws ++ k) te fr sls h g OCons [w; acc]); [reflexivity..|].
  split; cbn [length]; rewrite ?app_length, ?rev_length; lia.
Qed.
Lemma listv_fold {C} (ws : list (val C)) : fold_right VPair VNil ws = listv ws.
Proof. induction ws as [|w ws IH]; cbn; [reflexivity|]. now rewrite IH. Qed.

Lemma sim_first m b : Forall (SIM m) b ->
  forall n d ls own s s' F bg r r' og en st j k te fr sls h g K Q0, (length b <= n)%nat ->
  cfirst (comp [] d) ls n b s = Some s' -> pargs plain own b = true -> ls_ok own ls ->
  fnok F -> fbase F = lex bg ->
  at_ F s r og bg en st j k te fr sls h g ->
  pos F (code s') r' -> mx s' <= flim F -> bmx s' <= fblim F ->
  (forall vs vs' st1 j1 sls1 h1 g1,
     Forall2 (vrel j1) vs vs' -> length vs = length b ->
     at_ F s' r' og bg en st1 j1 (rev (first_args n vs') ++ k) te fr sls1 h1 g1 -> ext og j st j1 st1 ->
     rok m (K vs st1) (mk F r' (rev (first_args n vs') ++ k) te fr sls1 h1 g1) Q0) ->
  rok m (evals (eval P m) b en st K) (mk F r k te fr sls h g) Q0.
Proof.
  intros IH. induction b as [|e b IHb]; intros n d ls own s s' F bg r r' og en st j k te fr sls h g K Q0
    Ln C Hp LO OK Eb A Q L1 L2 HK.
  - cbn [cfirst] in C. unfold compile_constant in C.
    pose proof (pr_incs _ _ _ _ C (a_ok A)) as R. pose proof (proj2 R) as K1. kf K1.
    pose proof (pr_pos _ _ _ _ _ _ _ _ R Q (a_pos A)) as Er. rewrite repeat_rev in Er. subst r.
    pose proof (a_k A). pose proof (a_fr A).
    eapply rok_steps; [apply nil_steps; lia|]. cbn [evals].
    specialize (HK [] [] st j sls h g). rewrite first_nil, repeat_rev in HK.
    apply HK; [constructor|reflexivity| |apply ext_refl].
    eapply at_adv; [exact A|exact K1|exact Q|exact (a_rel A)|rewrite ?app_length, ?repeat_length; lia..].
  - inversion IH as [|? ? He Hb]; subst. cbn [pargs] in Hp. cbn [length] in Ln.
    destruct n as [|n]; [lia|].
    change (cfirst (comp [] d) ls (S n) (e :: b)) with (comp [] d ls false e ;; cfirst (comp [] d) ls n b) in C.
    ands Hp. sq C s1 C1.
    pose proof (comp_ck _ _ _ _ _ _ _ _ C1 Hp LO (a_ok A)) as K1. kf K1.
    assert (Ln' : (length b <= n)%nat) by lia.
    pose proof (first_ck _ _ _ _ _ _ _ Ln' C Hp0 LO ltac:(assumption)) as K2. kf K2.
    destruct (ck_pos _ _ _ _ _ _ _ _ _ K2 Q) as [r1 Q1].
    cbn [evals].
    eapply rok_bind with (f := fun v s => evals (eval P m) b en s (fun vs s => K (v :: vs) s)).
    { eapply He; try eassumption; lia. }
    intros v st1 M1 [v' [j1 [sls1 [h1 [g1 [-> [V [Rm E]]]]]]]]. specialize (V eq_refl).
    assert (A1 : at_ F s1 r1 og bg en st1 j1 (v' :: k) te fr sls1 h1 g1).
    { eapply at_adv; [exact A|exact K1|exact Q1|exact Rm|cbn [length]; lia..]. }
    eapply (IHb Hb) with (K := fun vs s => K (v :: vs) s); try eassumption.
    intros vs vs' st2 j2 sls2 h2 g2 VS Lv A2 E2.
    specialize (HK (v :: vs) (v' :: vs') st2 j2 sls2 h2 g2). cbn [first_args rev] in HK.
    rewrite <- app_assoc in HK. cbn [app] in HK. apply HK.
    + constructor; [eapply vrel_mono; [apply (e_sub _ _ _ _ _ E2)|exact V]|assumption].
    + cbn. now rewrite Lv.
    + assumption.
    + eapply ext_trans; eassumption.
Qed.

Lemma op_sim m eff o vs vs' F r og bg st j j0 st0 k te fr sls h g :
  Forall2 (vrel j) vs vs' -> length vs' = arity o -> mrel F j st og bg te sls h g ->
  ext og j0 st0 j st -> Z.of_nat (length k) + 1 <= flim F -> Z.of_nat (length fr) <= fblim F + 1 ->
  rok m (of_sum (apply_op P o vs) st) (mk F (II (Op o) :: r) (rev vs' ++ k) te fr sls h g)
    (post eff F r k te fr og bg j0 st0).
Proof.
  intros V L R E L1 L2. pose proof (apply_op_rel j o vs vs' V) as X.
  destruct (apply_op P o vs) as [v|e], (apply_op P o vs') as [v'|e'] eqn:E'; try contradiction; cbn in X |- *.
  - eapply (rok_step m (RVal v st)); [apply (step_op F r k te fr sls h g o vs' v'); [assumption..|fits]|].
    eapply rok_done; [intros _; exact X|exact R|exact E].
  - subst e'. right. eexists O, _, h, g, j. split; [constructor|]. split; [now apply (step_op_err F r k te fr sls h g o vs' e)|].
    apply (m_glob _ _ _ _ _ _ _ _ _ R).
Qed.

Lemma pr_arity n s s1 : match n with O => inc 1 | S n => dec (Z.of_nat n) end s = Some s1 -> ok s ->
  pr [] (1 - Z.of_nat n) 0 s s1.
Proof.
  intros C O. destruct n as [|n]; [exact (pr_inc _ _ _ C O)|].
  replace (1 - Z.of_nat (S n)) with (- Z.of_nat n) by lia. apply pr_dec; [lia|assumption..].
Qed.
Lemma sim_prim m o args : Forall (SIM m) args -> SIM m (EPrim o args).
Proof.
  intros IH. si. sq C s1 C1. sq C s2 C2. cbn [plain] in Hp. ands Hp. apply Nat.leb_le in Hp.
  pose proof (first_ck _ _ _ _ _ _ _ Hp C1 Hp0 LO (a_ok A)) as K1. kf K1.
  pose proof (pr_emiti _ _ _ C2 ltac:(assumption)) as R2.
  pose proof (pr_arity _ _ _ C (pr_ok _ _ _ _ _ R2)) as R3.
  pose proof (pr_trans _ _ _ _ _ _ _ _ _ R2 R3) as R. clear R2 R3. cbn [app] in R. pose proof (proj2 R) as K2. kf K2.
  pose proof (pr_ex _ _ _ _ _ _ _ R Q) as Q1. cbn [rev app] in Q1.
  eapply sim_first with (s := s) (s' := s1); try eassumption; try lia.
  intros vs vs' st1 j1 sls1 h1 g1 V Lv A1 E1.
  pose proof (a_fr A). pose proof (a_k A).
  eapply op_sim; [apply first_args_rel; exact V|apply first_args_len|exact (a_rel A1)|exact E1|lia..].
Qed.

Lemma sim_bin m o args : Forall (SIM m) args -> SIM m (EBin o args).
Proof.
  intros IH. si. cbn [plain] in Hp. ands Hp. apply Nat.eqb_eq in Hp. apply Nat.eqb_eq in Hp1.
  destruct args as [|e1 [|e2 [|e3 args]]]; try discriminate.
  cbn [cbin] in C. sq C s1 C1. sq C s2 C2. sq C s3 C3. sq C s4 C4. injection C as <-.
  assert (CA : cargs (comp [] d) ls [e1; e2] s = Some s2).
  { cbn [cargs]. unfold seq. rewrite C1, C2. reflexivity. }
  pose proof (args_ck _ _ _ _ _ _ CA Hp0 LO (a_ok A)) as K1. kf K1.
  pose proof (pr_emiti _ _ _ C3 ltac:(assumption)) as R2.
  pose proof (pr_dec 1 _ _ ltac:(lia) C4 (pr_ok _ _ _ _ _ R2)) as R3.
  pose proof (pr_trans _ _ _ _ _ _ _ _ _ R2 R3) as R. clear R2 R3. cbn [app] in R. pose proof (proj2 R) as K2. kf K2.
  pose proof (pr_ex _ _ _ _ _ _ _ R Q) as Q1. cbn [rev app] in Q1.
  eapply sim_args with (s := s) (s' := s2); try eassumption; try lia.
  intros vs vs' st1 j1 sls1 h1 g1 V Lv A1 E1.
  destruct vs as [|v [|w [|]]]; try discriminate.
  pose proof (Forall2_length _ _ _ V) as Lv'. cbn [length] in *.
  replace (of_sum (fold_op P o v [w]) st1) with (of_sum (apply_op P o [v; w]) st1).
  2:{ cbn. destruct (apply_op P o [v; w]); reflexivity. }
  pose proof (a_fr A). pose proof (a_k A).
  eapply op_sim; [exact V|lia|exact (a_rel A1)|exact E1|lia..].
Qed.

Lemma sim_list m args : Forall (SIM m) args -> SIM m (EList args).
Proof.
  intros IH. si. cbn [plain] in Hp. sq C s1 C1. sq C s2 C2.
  pose proof (args_ck _ _ _ _ _ _ C1 Hp LO (a_ok A)) as K1. kf K1.
  pose proof (pr_const _ _ _ C2 ltac:(assumption)) as R2. pose proof (proj2 R2) as K2. kf K2.
  pose proof (pr_decs _ _ _ _ C ltac:(assumption)) as R3. pose proof (proj2 R3) as K3. kf K3.
  pose proof (pr_ex _ _ _ _ _ _ _ R3 Q) as Q2. rewrite repeat_rev in Q2.
  pose proof (pr_ex _ _ _ _ _ _ _ R2 Q2) as Q1. cbn [rev app] in Q1.
  eapply sim_args with (s := s) (s' := s1); try eassumption; try lia.
  intros vs vs' st1 j1 sls1 h1 g1 V Lv A1 E1. pose proof (a_fr A1). pose proof (a_k A1) as Ak.
  pose proof (Forall2_length _ _ _ V) as Lv'. rewrite app_length, rev_length in Ak.
  eapply rok_step; [apply (step_push F _ _ te fr sls1 h1 g1 KNil); split; cbn [length]; rewrite ?app_length, ?rev_length; lia|].
  rewrite <- Lv, Lv'.
  eapply rok_steps; [apply (cons_steps F te fr sls1 h1 g1 r' k vs' VNil); lia|]. rewrite listv_fold.
  eapply rok_done; [intros _; apply vrel_listv; exact V|exact (a_rel A1)|exact E1].
Qed.

Lemma call_sim m f args : (forall m', (m' < m)%nat -> forall e, SIM m' e) ->
  SIM m f -> Forall (SIM m) args ->
  forall d ls own eff s s' F bg r r' og en st j k te fr sls h g,
  (comp [] d ls false f ;; cargs (comp [] d) ls args ;; emiti (Call (length args)) ;;
   note_call ;; dec (Z.of_nat (length args))) s = Some s' ->
  plain own false false f = true -> pargs plain own args = true -> ls_ok own ls ->
  fnok F -> fbase F = lex bg ->
  at_ F s r og bg en st j k te fr sls h g ->
  pos F (code s') r' -> mx s' <= flim F -> bmx s' <= fblim F ->
  rok m (match eval P m f en st with
         | RVal fv s => evals (eval P m) args en s (fun vs s => applyf P m fv vs s)
         | r => r end) (mk F r k te fr sls h g) (post eff F r' k te fr og bg j st).
Proof.
  intros IHm IHf IHa d ls own eff s s' F bg r r' og en st j k te fr sls h g C Pf Pa LO OK Eb A Q L1 L2.
  sq C s1 C1. sq C s2 C2. sq C s3 C3. sq C s4 C4.
  pose proof (comp_ck _ _ _ _ _ _ _ _ C1 Pf LO (a_ok A)) as K1. kf K1.
  pose proof (args_ck _ _ _ _ _ _ C2 Pa LO ltac:(assumption)) as K2. kf K2.
  pose proof (pr_emiti _ _ _ C3 ltac:(assumption)) as R3.
  pose proof (pr_tag _ _ _ to_call C4 (pr_ok _ _ _ _ _ R3)) as R4.
  pose proof (pr_dec _ _ _ (Zle_0_nat (length args)) C (pr_ok _ _ _ _ _ R4)) as R5.
  pose proof (pr_trans _ _ _ _ _ _ _ _ _ (pr_trans _ _ _ _ _ _ _ _ _ R3 R4) R5) as R. clear R3 R4 R5.
  cbn [app] in R. pose proof (proj2 R) as K3. kf K3.
  pose proof (pr_ex _ _ _ _ _ _ _ R Q) as Q2. cbn [rev app] in Q2.
  destruct (ck_pos _ _ _ _ _ _ _ _ _ K2 Q2) as [r1 Q1].
  eapply rok_bind with (f := fun fv s => evals (eval P m) args en s (fun vs s => applyf P m fv vs s)).
  { eapply IHf; try eassumption; lia. }
  intros v st1 M1 [v' [j1 [sls1 [h1 [g1 [-> [V [Rm E]]]]]]]]. specialize (V eq_refl).
  assert (A1 : at_ F s1 r1 og bg en st1 j1 (v' :: k) te fr sls1 h1 g1).
  { eapply at_adv; [exact A|exact K1|exact Q1|exact Rm|cbn [length]; lia..]. }
  eapply sim_args with (s := s1) (s' := s2) (K := fun vs s => applyf P m v vs s); try eassumption; try lia.
  intros vs vs' st2 j2 sls2 h2 g2 VS Lv A2 E2. pose proof (a_k A1). pose proof (a_fr A1). cbn [length] in *.
  rewrite <- Lv. eapply rok_ext; [eapply ext_trans; eassumption|].
  eapply rok_imp; [intros v0 st0 M0; apply post_eff|].
  eapply apply_sim; try eassumption; try lia.
  - exact (a_rel A2).
  - eapply vrel_mono; [apply (e_sub _ _ _ _ _ E2)|exact V].
Qed.

Lemma sim_call m f args : (forall m', (m' < m)%nat -> forall e, SIM m' e) ->
  SIM m f -> Forall (SIM m) args -> SIM m (ECall f args).
Proof.
  intros IHm IHf IHa. si. cbn [plain] in Hp. ands Hp.
  assert (C' : (comp [] d ls false f ;; cargs (comp [] d) ls args ;; emiti (Call (length args)) ;;
   note_call ;; dec (Z.of_nat (length args))) s = Some s').
  { destruct (head_var f) as [x|] eqn:Ef; [|exact C].
    rewrite (inlinable_none own ls rf f x s LO Ef) in C; [exact C|]. now apply negb_true_iff. }
  eapply call_sim; eassumption.
Qed.
Lemma sim_funcall m f args : (forall m', (m' < m)%nat -> forall e, SIM m' e) ->
  SIM m f -> Forall (SIM m) args -> SIM m (EFuncall f args).
Proof.
  intros IHm IHf IHa. si. cbn [plain] in Hp. ands Hp.
  assert (C' : (comp [] d ls false f ;; cargs (comp [] d) ls args ;; emiti (Call (length args)) ;;
   note_call ;; dec (Z.of_nat (length args))) s = Some s').
  { destruct f; try exact C. discriminate. }
  eapply call_sim; eassumption.
Qed.

Lemma sim_progn m b : Forall (SIM m) b -> SIM m (EProgn b).
Proof.
  intros IH. si. cbn [plain] in Hp. eapply rok_imp; [intros v0 st0 M0; apply post_eff|].
  eapply sim_body; eassumption.
Qed.

Lemma sim_prog1 m e b : SIM m e -> Forall (SIM m) b -> SIM m (EProg1 e b).
Proof.
  intros IHe IHb. si. cbn [plain] in Hp. ands Hp. sq C s1 C1. sq C s2 C2. sq C s3 C3.
  pose proof (comp_ck _ _ _ _ _ _ _ _ C1 Hp LO (a_ok A)) as K1. kf K1.
  pose proof (body_ck _ _ _ _ _ _ _ C2 Hp0 LO ltac:(assumption)) as K2. kf K2.
  pose proof (pr_emiti _ _ _ C3 ltac:(assumption)) as R3.
  pose proof (pr_dec 1 _ _ ltac:(lia) C (pr_ok _ _ _ _ _ R3)) as R4.
  pose proof (pr_trans _ _ _ _ _ _ _ _ _ R3 R4) as R. clear R3 R4. cbn [app] in R. pose proof (proj2 R) as K4. kf K4.
  pose proof (pr_ex _ _ _ _ _ _ _ R Q) as Q2. cbn [rev app] in Q2.
  destruct (ck_pos _ _ _ _ _ _ _ _ _ K2 Q2) as [r1 Q1].
  eapply rok_bind with (f := fun v s => match evbody (eval P m) b en s with RVal _ s => RVal v s | r => r end).
  { eapply IHe; try eassumption; lia. }
  intros v st1 M1 [v' [j1 [sls1 [h1 [g1 [-> [V [Rm E]]]]]]]]. specialize (V eq_refl).
  assert (A1 : at_ F s1 r1 og bg en st1 j1 (v' :: k) te fr sls1 h1 g1).
  { eapply at_adv; [exact A|exact K1|exact Q1|exact Rm|cbn [length]; lia..]. }
  pose proof (a_k A1). pose proof (a_fr A1).
  eapply rok_bind with (f := fun _ s => RVal v s).
  { eapply sim_body with (s := s1) (s' := s2); try eassumption; lia. }
  intros w st2 M2 [w' [j2 [sls2 [h2 [g2 [-> [W [Rm2 E2]]]]]]]].
  eapply rok_step; [apply step_pop; fits|].
  eapply rok_done; [intros _; eapply vrel_mono; [apply (e_sub _ _ _ _ _ E2)|exact V]|exact Rm2|].
  eapply ext_trans; eassumption.
Qed.

(** * Jumps *)
Lemma rok_then n r M Q Q' : rok n r M Q ->
  (forall v st M1, Q v st M1 -> rok n (RVal v st) M1 Q') -> rok n r M Q'.
Proof.
  intros H I. pose proof (rok_bind n r M Q Q' (fun v st => RVal v st) H I) as X. now destruct r.
Qed.
Lemma fin_lbl m r M eff F el r' k te fr og bg j st :
  Z.of_nat (length k) + 1 <= flim F -> Z.of_nat (length fr) <= fblim F + 1 ->
  rok m r M (post eff F (ILbl el :: r') k te fr og bg j st) ->
  rok m r M (post eff F r' k te fr og bg j st).
Proof.
  intros L1 L2 H. eapply rok_then; [exact H|].
  intros v st1 M1 [v' [j1 [sls1 [h1 [g1 [-> [V [Rm E]]]]]]]].
  eapply rok_step; [apply step_lbl; fits|]. eapply rok_done; eassumption.
Qed.
Lemma fin_jmp m r M eff F el r0 r' k te fr og bg j st :
  mfind el (map (al (fbase F)) (fC F)) = Some (map (al (fbase F)) r') ->
  Z.of_nat (length k) + 1 <= flim F -> Z.of_nat (length fr) <= fblim F + 1 ->
  rok m r M (post eff F (IJ Jmp el :: r0) k te fr og bg j st) ->
  rok m r M (post eff F r' k te fr og bg j st).
Proof.
  intros Mf L1 L2 H. eapply rok_then; [exact H|].
  intros v st1 M1 [v' [j1 [sls1 [h1 [g1 [-> [V [Rm E]]]]]]]].
  eapply rok_step; [apply step_jump; [exact Mf|fits]|]. eapply rok_done; eassumption.
Qed.
Lemma label_ok s c : ok s -> ok (set_counters (S (nlab s)) c s).
Proof.
  intros [O1 [O2 O3]]. split; [|split]; cbn; try assumption.
  eapply Forall_impl; [|exact O3]. cbn; intros; lia.
Qed.
Lemma at_label F s r og bg en st j k te fr sls h g c :
  at_ F s r og bg en st j k te fr sls h g ->
  at_ F (set_counters (S (nlab s)) c s) r og bg en st j k te fr sls h g.
Proof. intros [A1 A2 A3 A4 A5 A6 A7]. constructor; try assumption. now apply label_ok. Qed.
Lemma label_new s c s1 : ok s -> gr (S (nlab s)) (set_counters (S (nlab s)) c s) s1 ->
  ~ In (nlab s) (labs (code s1)).
Proof.
  intros [_ [_ O]] [[new [E N]] _ _ _] I. cbn in E. rewrite E, labs_app in I.
  apply in_app_or in I. rewrite Forall_forall in N, O. destruct I as [I|I].
  - specialize (N _ I). cbn in N. lia.
  - specialize (O _ I). cbn in O. lia.
Qed.
Lemma gr_le lo lo' hi de be la s s1 : ck lo hi de be la s s1 -> (lo' <= lo)%nat -> gr lo' s s1.
Proof. intros K L. eapply gr_weaken; [exact L|]. apply (ck_gr _ _ _ _ _ _ _ K). Qed.
Lemma gr_emit lo i s s1 : emit i s = Some s1 -> (forall l, i <> ILbl l) -> gr lo s s1.
Proof.
  intros C N. injection C as <-. constructor; cbn; try lia. exists [i]. split; [reflexivity|].
  destruct i; cbn; first [exfalso; eapply N; reflexivity|constructor].
Qed.
Lemma gr_dec lo n s s1 : dec n s = Some s1 -> gr lo s s1.
Proof. intros C. injection C as <-. constructor; cbn; try lia. exists []. split; [reflexivity|constructor]. Qed.

Lemma cconst_inv e b : cconst e = Some b ->
  exists c, e = EConst c /\ (if b then @nilp sclo (kval c) = false else c = KNil).
Proof.
  destruct e as [c| | | | | | | | | | | | | | | | | |]; try discriminate. cbn.
  destruct c; intros H; injection H as <-; eexists; split; reflexivity.
Qed.

Definition cSIM m (cl : exp * list exp) : Prop := SIM m (fst cl) /\ Forall (SIM m) (snd cl).
Lemma sim_cond m cls : Forall (cSIM m) cls ->
  forall d ls own rf el s s' F bg r r' og en st j k te fr sls h g,
  ccond (comp [] d) ls rf el cls s = Some s' -> pcond plain own rf cls = true -> ls_ok own ls ->
  fnok F -> fbase F = lex bg ->
  at_ F s r og bg en st j k te fr sls h g ->
  pos F (code s') (ILbl el :: r') -> mx s' <= flim F -> bmx s' <= fblim F ->
  Z.of_nat (length k) + 1 <= flim F -> Z.of_nat (length fr) <= fblim F + 1 ->
  mfind el (map (al (fbase F)) (fC F)) = Some (map (al (fbase F)) r') ->
  rok m (evcond (eval P m) cls en st) (mk F r k te fr sls h g) (post false F r' k te fr og bg j st).
Proof.
  intros IH. induction cls as [|[e b] cls IHc];
    intros d ls own rf el s s' F bg r r' og en st j k te fr sls h g C Hp LO OK Eb A Q L1 L2 L3 L4 Mf.
  - cbn [ccond] in C. pose proof (pr_emiti _ _ _ C (a_ok A)) as R.
    pose proof (pr_pos _ _ _ _ _ _ _ _ R Q (a_pos A)) as Er. cbn [rev app] in Er. subst r.
    eapply rok_step; [apply (step_push F _ k te fr sls h g KNil); fits|].
    eapply fin_lbl; [assumption..|].
    eapply rok_done; [intros _; constructor|exact (a_rel A)|apply ext_refl].
  - inversion IH as [|? ? [He Hb] Hc]; subst. cbn [fst snd] in *. specialize (IHc Hc).
    cbn [pcond] in Hp. ands Hp.
    cbn [ccond] in C. unfold with_label in C. set (s0 := set_counters _ _ s) in C.
    pose proof (at_label _ _ _ _ _ _ _ _ _ _ _ _ _ _ (ncell s) A) as A0. fold s0 in A0.
    cbn [evcond].
    destruct (cconst e) as [[|]|] eqn:Ec.
    + destruct (cconst_inv _ _ Ec) as [c [-> Nc]]. rewrite eval_eq. cbn beta iota zeta. rewrite Nc.
      assert (G : exists s1, (match b with
        | [] => match EConst c with EConst KT => emiti (Push KT) ;; inc 1 | _ => comp [] d ls rf (EConst c) end
        | _ => cbody (comp [] d) ls rf b end) s0 = Some s1 /\ code s1 = code s' /\ bmx s1 = bmx s'
              /\ (b <> [] -> mx s1 = mx s')).
      { destruct b as [|e0 b].
        - destruct c; try (sq C s1 C1; exists s1; injection C as <-; now split).
          injection C as <-. eexists. split; [reflexivity|]. split; [reflexivity|]. split; [reflexivity|congruence].
        - sq C s1 C1. exists s1. injection C as <-. now split. }
      destruct G as [s1 [C1 [E1 [E2 E3]]]]. rewrite <- E1 in Q. rewrite <- E2 in L2.
      destruct b as [|e0 b].
      * assert (CC : compile_constant c s0 = Some s1).
        { destruct c; try exact C1; rewrite comp_eq in C1; exact C1. }
        pose proof (pr_const _ _ _ CC (a_ok A0)) as R.
        pose proof (pr_pos _ _ _ _ _ _ _ _ R Q (a_pos A0)) as Er. cbn [rev app] in Er. subst r.
        eapply rok_step; [apply (step_push F _ k te fr sls h g c); fits|].
        eapply fin_lbl; [assumption..|].
        eapply rok_done; [intros _; apply vrel_kval|exact (a_rel A)|apply ext_refl].
      * rewrite <- E3 in L1 by discriminate.
        eapply fin_lbl; [assumption..|].
        eapply sim_body with (s := s0) (s' := s1); eassumption.
    + destruct (cconst_inv _ _ Ec) as [c [-> ->]]. rewrite eval_eq. cbn [kval nilp].
      eapply IHc; eassumption.
    + sq C s1 C1. sq C s2 C2.
      pose proof (comp_ck _ _ _ _ _ _ _ _ C1 Hp LO (a_ok A0)) as K1. kf K1.
      pose proof (pr_dec 1 _ _ ltac:(lia) C2 ltac:(assumption)) as R2. pose proof (proj2 R2) as K2. kf K2.
      change (rok m (match eval P m e en st with
        | RVal v s => if nilp v then evcond (eval P m) cls en s
                      else match b with [] => RVal v s | _ => evbody (eval P m) b en s end
        | RErr e0 s => RErr e0 s | ROut => ROut end) (mk F r k te fr sls h g) (post false F r' k te fr og bg j st)).
      assert (Pre : forall r1, pos F (code s1) r1 -> mx s1 <= flim F -> bmx s1 <= fblim F ->
        (forall v v' st1 j1 sls1 h1 g1, vrel j1 v v' -> mrel F j1 st1 og bg te sls1 h1 g1 -> ext og j st j1 st1 ->
          at_ F s2 r1 og bg en st1 j1 k te fr sls1 h1 g1 ->
          rok m (if nilp v' then evcond (eval P m) cls en st1
                      else match b with [] => RVal v st1 | _ => evbody (eval P m) b en st1 end)
            (mk F r1 (v' :: k) te fr sls1 h1 g1) (post false F r' k te fr og bg j1 st1)) ->
        rok m (match eval P m e en st with
        | RVal v s => if nilp v then evcond (eval P m) cls en s
                      else match b with [] => RVal v s | _ => evbody (eval P m) b en s end
        | RErr e0 s => RErr e0 s | ROut => ROut end) (mk F r k te fr sls h g) (post false F r' k te fr og bg j st)).
      { intros r1 Q1 M1 M2 HK.
        eapply rok_bind with (f := fun v s => if nilp v then evcond (eval P m) cls en s
                      else match b with [] => RVal v s | _ => evbody (eval P m) b en s end).
        { eapply He; try eassumption. }
        intros v st1 M3 [v' [j1 [sls1 [h1 [g1 [-> [V [Rm E]]]]]]]]. specialize (V eq_refl).
        eapply rok_ext; [exact E|]. rewrite (vrel_nilp _ _ _ V).
        eapply HK; try eassumption.
        assert (A1 : at_ F s1 r1 og bg en st1 j1 (v' :: k) te fr sls1 h1 g1).
        { eapply at_adv; [exact A0|exact K1|exact Q1|exact Rm|cbn [length]; lia..]. }
        eapply at_adv; [exact A1|exact K2| |exact Rm|cbn [length]; lia..].
        rewrite (proj1 R2). exact Q1. }
      pose proof (proj1 R2) as Ec2. cbn [app] in Ec2.
      destruct b as [|e0 b], cls as [|cl cls].
      * injection C as <-. rewrite Ec2 in Q. eapply Pre; [exact Q|lia|lia|].
        intros v v' st1 j1 sls1 h1 g1 V Rm E A2. eapply fin_lbl; [assumption..|].
        destruct (nilp v') eqn:Nv.
        -- cbn [evcond]. destruct v'; try discriminate.
           eapply rok_done; [intros _; constructor|exact Rm|apply ext_refl].
        -- eapply rok_done; [intros _; exact V|exact Rm|apply ext_refl].
      * sq C s3 C3. pose proof (pr_emit (IJ Jtp el) _ _ I C3 ltac:(assumption)) as R3. pose proof (proj2 R3) as K3. kf K3.
        pose proof (cond_ck _ _ _ _ _ _ _ _ C Hp0 LO ltac:(assumption)) as K4. kf K4.
        destruct (ck_pos _ _ _ _ _ _ _ _ _ K4 Q) as [r3 Q3].
        pose proof (pr_ex _ _ _ _ _ _ _ R3 Q3) as Q2. cbn [rev app] in Q2.
        eapply Pre; [rewrite <- Ec2; exact Q2|lia|lia|].
        intros v v' st1 j1 sls1 h1 g1 V Rm E A2.
        eapply rok_step; [apply (step_cjump F r3 k te fr sls1 h1 g1 Jtp el r' v'); [intros _; exact Mf|]|].
        { cbn [jstk]. destruct (nilp v'); fits. }
        cbn [jtaken jstk]. destruct (nilp v') eqn:Nv; cbn [negb].
        -- eapply IHc; try eassumption.
           eapply at_adv; [exact A2|exact K3|exact Q3|exact Rm|cbn [length]; lia..].
        -- eapply rok_done; [intros _; exact V|exact Rm|apply ext_refl].
      * sq C s3 C3. sq C s4 C4. pose proof (pr_emit (IJ Jnp el) _ _ I C3 ltac:(assumption)) as R3. pose proof (proj2 R3) as K3. kf K3.
        pose proof (body_ck _ _ _ _ _ _ _ C4 Hp1 LO ltac:(assumption)) as K4. kf K4.
        pose proof (pr_dec 1 _ _ ltac:(lia) C ltac:(assumption)) as R5. pose proof (proj2 R5) as K5. kf K5.
        pose proof (pr_ex _ _ _ _ _ _ _ R5 Q) as Q4. cbn [rev app] in Q4.
        destruct (ck_pos _ _ _ _ _ _ _ _ _ K4 Q4) as [r3 Q3].
        pose proof (pr_ex _ _ _ _ _ _ _ R3 Q3) as Q2. cbn [rev app] in Q2.
        eapply Pre; [rewrite <- Ec2; exact Q2|lia|lia|].
        intros v v' st1 j1 sls1 h1 g1 V Rm E A2.
        eapply rok_step; [apply (step_cjump F r3 k te fr sls1 h1 g1 Jnp el r' v'); [intros _; exact Mf|]|].
        { cbn [jstk]. destruct (nilp v'); fits. }
        cbn [jtaken jstk]. destruct (nilp v') eqn:Nv.
        -- cbn [evcond]. destruct v'; try discriminate.
           eapply rok_done; [intros _; constructor|exact Rm|apply ext_refl].
        -- eapply fin_lbl; [assumption..|].
           eapply sim_body with (s := s3) (s' := s4); try eassumption; try lia.
           eapply at_adv; [exact A2|exact K3|exact Q3|exact Rm|cbn [length]; lia..].
      * sq C s3 C3. sq C s4 C4. sq C s5 C5. sq C s6 C6. sq C s7 C7.
        pose proof (pr_emit (IJ Jn (nlab s)) _ _ I C3 ltac:(assumption)) as R3. pose proof (proj2 R3) as K3. kf K3.
        pose proof (body_ck _ _ _ _ _ _ _ C4 Hp1 LO ltac:(assumption)) as K4. kf K4.
        pose proof (pr_dec 1 _ _ ltac:(lia) C5 ltac:(assumption)) as R5. pose proof (proj2 R5) as K5. kf K5.
        pose proof (pr_emit (IJ Jmp el) _ _ I C6 ltac:(assumption)) as R6. pose proof (proj2 R6) as K6. kf K6.
        assert (Ln : (nlab s < nlab s6)%nat).
        { assert (nlab s0 = S (nlab s)) by reflexivity. lia. }
        pose proof (pr_emit (ILbl (nlab s)) _ _ Ln C7 ltac:(assumption)) as R7. pose proof (proj2 R7) as K7. kf K7.
        pose proof (cond_ck _ _ _ _ _ _ _ _ C Hp0 LO ltac:(assumption)) as K8. kf K8.
        destruct (ck_pos _ _ _ _ _ _ _ _ _ K8 Q) as [r7 Q7].
        pose proof (pr_ex _ _ _ _ _ _ _ R7 Q7) as Q6. cbn [rev app] in Q6.
        pose proof (pr_ex _ _ _ _ _ _ _ R6 Q6) as Q5. cbn [rev app] in Q5.
        pose proof (pr_ex _ _ _ _ _ _ _ R5 Q5) as Q4. cbn [rev app] in Q4.
        destruct (ck_pos _ _ _ _ _ _ _ _ _ K4 Q4) as [r3 Q3].
        pose proof (pr_ex _ _ _ _ _ _ _ R3 Q3) as Q2. cbn [rev app] in Q2.
        assert (Mn : mfind (nlab s) (map (al (fbase F)) (fC F)) = Some (map (al (fbase F)) r7)).
        { apply (mfind_pos F (code s6)); [assumption|]. apply (label_new s (ncell s)); [exact (a_ok A)|].
          fold s0. assert (N0 : nlab s0 = S (nlab s)) by reflexivity.
          eapply gr_trans; [eapply gr_le; [exact K1|lia]|].
          eapply gr_trans; [eapply gr_dec; exact C2|].
          eapply gr_trans; [eapply gr_emit; [exact C3|discriminate]|].
          eapply gr_trans; [eapply gr_le; [exact K4|lia]|].
          eapply gr_trans; [eapply gr_dec; exact C5|].
          eapply gr_emit; [exact C6|discriminate]. }
        eapply Pre; [rewrite <- Ec2; exact Q2|lia|lia|].
        intros v v' st1 j1 sls1 h1 g1 V Rm E A2.
        eapply rok_step; [apply (step_cjump F r3 k te fr sls1 h1 g1 Jn (nlab s) r7 v'); [intros _; exact Mn|]|].
        { cbn [jstk]. fits. }
        assert (A3 : at_ F s3 r3 og bg en st1 j1 k te fr sls1 h1 g1).
        { eapply at_adv; [exact A2|exact K3|exact Q3|exact Rm|cbn [length]; lia..]. }
        cbn [jtaken jstk]. destruct (nilp v') eqn:Nv.
        -- eapply IHc; try eassumption.
           destruct A3. pose proof (ck_lex0 _ _ _ _ _ _ K4) as X4. pose proof (ck_lex0 _ _ _ _ _ _ K5) as X5.
           pose proof (ck_lex0 _ _ _ _ _ _ K6) as X6. pose proof (ck_lex0 _ _ _ _ _ _ K7) as X7.
           constructor; try assumption; try lia. congruence.
        -- eapply fin_jmp; [exact Mf|assumption..|].
           eapply sim_body with (s := s3) (s' := s4); try eassumption; try lia.
Qed.

Lemma sim_econd m cls : Forall (cSIM m) cls -> SIM m (ECond cls).
Proof.
  intros IH. si. cbn [plain] in Hp. unfold with_label in C. set (s0 := set_counters _ _ s) in C.
  pose proof (at_label _ _ _ _ _ _ _ _ _ _ _ _ _ _ (ncell s) A) as A0. fold s0 in A0.
  sq C s1 C1. sq C s2 C2.
  pose proof (cond_ck _ _ _ _ _ _ _ _ C1 Hp LO (a_ok A0)) as K1. kf K1.
  pose proof (pr_inc _ _ _ C2 ltac:(assumption)) as R2. pose proof (proj2 R2) as K2. kf K2.
  assert (N0 : nlab s0 = S (nlab s)) by reflexivity.
  assert (Ln : (nlab s < nlab s2)%nat) by lia.
  pose proof (pr_emit (ILbl (nlab s)) _ _ Ln C ltac:(assumption)) as R3. pose proof (proj2 R3) as K3. kf K3.
  pose proof (pr_ex _ _ _ _ _ _ _ R3 Q) as Q2. cbn [rev app] in Q2.
  pose proof (pr_ex _ _ _ _ _ _ _ R2 Q2) as Q1. cbn [rev app] in Q1.
  pose proof (a_k A0). pose proof (a_fr A0).
  eapply rok_imp; [intros v0 st0 M0; apply post_eff|].
  eapply sim_cond with (s := s0) (s' := s1); try eassumption; try lia.
  apply (mfind_pos F (code s2)); [assumption|]. rewrite (proj1 R2). cbn [app].
  apply (label_new s (ncell s)); [exact (a_ok A)|]. fold s0. eapply gr_le; [exact K1|lia].
Qed.

(** ** case *)
Lemma eqlv_rel j v v' c : vrel j v v' -> eqlv v c = eqlv v' c.
Proof. now destruct 1. Qed.
Lemma memqlv_nil j v v' ks : vrel j v v' -> nilp (memqlv v ks) = nilp (memqlv v' ks).
Proof.
  intros V. induction ks as [|c ks IH]; cbn [memqlv]; [reflexivity|].
  rewrite (eqlv_rel _ _ _ c V). destruct (eqlv v' c); [reflexivity|exact IH].
Qed.
Lemma case_test o c l s s1 :
  (emiti Dup ;; inc 1 ;; compile_constant c ;; emiti o ;; dec 1 ;; emit (IJ Jn l) ;; dec 1) s = Some s1 ->
  ok s -> pr [IJ Jn l; II o; II (Push c); II Dup] 0 0 s s1 /\ cur s + 2 <= mx s1.
Proof.
  intros C O. sq C t1 C1. sq C t2 C2. sq C t3 C3. sq C t4 C4. sq C t5 C5. sq C t6 C6.
  pose proof (pr_emiti _ _ _ C1 O) as R1.
  pose proof (pr_inc _ _ _ C2 (pr_ok _ _ _ _ _ R1)) as R2.
  pose proof (pr_const _ _ _ C3 (pr_ok _ _ _ _ _ R2)) as R3.
  pose proof (pr_emiti _ _ _ C4 (pr_ok _ _ _ _ _ R3)) as R4.
  pose proof (pr_dec 1 _ _ ltac:(lia) C5 (pr_ok _ _ _ _ _ R4)) as R5.
  pose proof (pr_emit (IJ Jn l) _ _ I C6 (pr_ok _ _ _ _ _ R5)) as R6.
  pose proof (pr_dec 1 _ _ ltac:(lia) C (pr_ok _ _ _ _ _ R6)) as R7.
  pose proof (pr_trans _ _ _ _ _ _ _ _ _ (pr_trans _ _ _ _ _ _ _ _ _ R1 R2) R3) as RA.
  pose proof (pr_trans _ _ _ _ _ _ _ _ _ (pr_trans _ _ _ _ _ _ _ _ _ (pr_trans _ _ _ _ _ _ _ _ _ R4 R5) R6) R7) as RB.
  pose proof (pr_trans _ _ _ _ _ _ _ _ _ RA RB) as R. cbn [app] in R.
  pose proof (proj2 RA) as KA. kf KA. pose proof (proj2 RB) as KB. kf KB.
  split; [exact R|lia].
Qed.
Lemma pr_gr lo is de be s s1 : pr is de be s s1 -> labs is = [] -> gr lo s s1.
Proof.
  intros [E K] N. destruct (ck_gr _ _ _ _ _ _ _ K). constructor; try assumption.
  exists is. split; [assumption|]. rewrite N. constructor.
Qed.

Lemma sim_case m cls : Forall (fun cl : option (list const) * list exp => Forall (SIM m) (snd cl)) cls ->
  forall d ls own rf el s s' F bg r r' og en st j v v' k te fr sls h g,
  ccase (comp [] d) ls rf el false cls s = Some s' -> pcase plain own rf cls = true -> ls_ok own ls ->
  fnok F -> fbase F = lex bg ->
  at_ F s r og bg en st j (v' :: k) te fr sls h g -> vrel j v v' ->
  pos F (code s') (ILbl el :: r') -> mx s' <= flim F -> bmx s' <= fblim F ->
  Z.of_nat (length k) + 2 <= flim F -> Z.of_nat (length fr) <= fblim F + 1 ->
  mfind el (map (al (fbase F)) (fC F)) = Some (map (al (fbase F)) r') ->
  rok m (evcase (eval P m) v cls en st) (mk F r (v' :: k) te fr sls h g)
    (post false F r' (v' :: k) te fr og bg j st).
Proof.
  intros IH. induction cls as [|[ks b] cls IHc];
    intros d ls own rf el s s' F bg r r' og en st j v v' k te fr sls h g C Hp LO OK Eb A V Q L1 L2 L3 L4 Mf.
  - cbn [ccase] in C. pose proof (pr_emiti _ _ _ C (a_ok A)) as R.
    pose proof (pr_pos _ _ _ _ _ _ _ _ R Q (a_pos A)) as Er. cbn [rev app] in Er. subst r.
    eapply rok_step; [apply (step_push F _ (v' :: k) te fr sls h g KNil); fits|].
    eapply fin_lbl; [cbn [length]; lia|assumption|].
    eapply rok_done; [intros _; constructor|exact (a_rel A)|apply ext_refl].
  - inversion IH as [|? ? Hb Hc]; subst. cbn [fst snd] in *. specialize (IHc Hc).
    cbn [pcase] in Hp. ands Hp.
    cbn [ccase] in C. unfold with_label in C. set (s0 := set_counters _ _ s) in C.
    pose proof (at_label _ _ _ _ _ _ _ _ _ _ _ _ _ _ (ncell s) A) as A0. fold s0 in A0.
    sq C s1 C1. sq C s2 C2. sq C s3 C3. sq C s4 C4. sq C s5 C5.
    assert (N0 : nlab s0 = S (nlab s)) by reflexivity.
    assert (T : exists is, pr is 0 0 s0 s1 /\ labs is = [] /\
      match ks with
      | None => is = []
      | Some l => exists o c, is = [IJ Jn (nlab s); II o; II (Push c); II Dup] /\ cur s0 + 2 <= mx s1 /\
          (match ks with Some [k1] => o = Eql /\ c = k1
           | Some l => o = Memql /\ c = fold_right KPair KNil l | None => True end)
      end).
    { destruct ks as [[|k1 [|k2 ks]]|]; [discriminate| | |].
      - destruct (case_test _ _ _ _ _ C1 (a_ok A0)) as [R L]. eexists; split; [exact R|]. split; [reflexivity|].
        exists Eql, k1. now repeat split.
      - destruct (case_test _ _ _ _ _ C1 (a_ok A0)) as [R L]. eexists; split; [exact R|]. split; [reflexivity|].
        eexists Memql, _. now repeat split.
      - injection C1 as <-. exists []. split; [|now split]. split; [reflexivity|].
        apply CK_skip; [reflexivity|exact (a_ok A0)|lia]. }
    destruct T as [is [R1 [Li T]]].
    pose proof (proj2 R1) as K1. kf K1.
    pose proof (body_ck _ _ _ _ _ _ _ C2 Hp1 LO ltac:(assumption)) as K2. kf K2.
    pose proof (pr_dec 1 _ _ ltac:(lia) C3 ltac:(assumption)) as R3. pose proof (proj2 R3) as K3. kf K3.
    pose proof (pr_emit (IJ Jmp el) _ _ I C4 ltac:(assumption)) as R4. pose proof (proj2 R4) as K4. kf K4.
    assert (Ln : (nlab s < nlab s4)%nat) by lia.
    pose proof (pr_emit (ILbl (nlab s)) _ _ Ln C5 ltac:(assumption)) as R5. pose proof (proj2 R5) as K5. kf K5.
    pose proof (case_ck _ _ _ _ _ _ _ _ _ C Hp0 LO ltac:(assumption)) as K6. kf K6.
    destruct (ck_pos _ _ _ _ _ _ _ _ _ K6 Q) as [r5 Q5].
    pose proof (pr_ex _ _ _ _ _ _ _ R5 Q5) as Q4. cbn [rev app] in Q4.
    pose proof (pr_ex _ _ _ _ _ _ _ R4 Q4) as Q3. cbn [rev app] in Q3.
    pose proof (pr_ex _ _ _ _ _ _ _ R3 Q3) as Q2. cbn [rev app] in Q2.
    destruct (ck_pos _ _ _ _ _ _ _ _ _ K2 Q2) as [r1 Q1].
    pose proof (pr_pos _ _ _ _ _ _ _ _ R1 Q1 (a_pos A0)) as Er.
    assert (A1 : at_ F s1 r1 og bg en st j (v' :: k) te fr sls h g).
    { eapply at_adv; [exact A0|exact K1|exact Q1|exact (a_rel A)|cbn [length]; lia..]. }
    assert (B : rok m (evbody (eval P m) b en st) (mk F r1 (v' :: k) te fr sls h g)
                  (post false F r' (v' :: k) te fr og bg j st)).
    { eapply fin_jmp; [exact Mf|cbn [length]; lia|assumption|].
      eapply sim_body with (s := s1) (s' := s2); try eassumption; try lia. }
    assert (Mn : mfind (nlab s) (map (al (fbase F)) (fC F)) = Some (map (al (fbase F)) r5)).
    { apply (mfind_pos F (code s4)); [assumption|]. apply (label_new s (ncell s)); [exact (a_ok A)|].
      fold s0. eapply gr_trans; [eapply pr_gr; [exact R1|exact Li]|].
      eapply gr_trans; [eapply gr_le; [exact K2|lia]|].
      eapply gr_trans; [eapply gr_dec; exact C3|].
      eapply gr_emit; [exact C4|discriminate]. }
    destruct b as [|e0 b]; [discriminate|]. cbn [evcase].
    destruct ks as [l|].
    2:{ subst is. cbn [rev app] in Er. subst r. exact B. }
    destruct T as [o [c [-> [Lm T]]]]. cbn [rev app] in Er. subst r.
    pose proof (a_k A1) as Ak. pose proof (a_k A0) as Ak0. cbn [length] in Ak, Ak0.
    match goal with |- context [nilp ?t] => set (test := t) end.
    assert (X : exists t', nilp t' = nilp test /\ step P (mk F (II o :: IJ Jn (nlab s) :: r1) (kval c :: v' :: v' :: k) te fr sls h g)
       = Next (mk F (IJ Jn (nlab s) :: r1) (t' :: v' :: k) te fr sls h g)).
    { subst test. destruct l as [|k1 [|k2 l]].
      - destruct T as [-> ->]. exists (memqlv v' []). split; [reflexivity|]. apply (step_memql F _ (v' :: k) te fr sls h g v' []). fits.
      - destruct T as [-> ->]. exists (boolv (eqlv v' k1)). split; [rewrite (eqlv_rel _ _ _ k1 V); now destruct (eqlv v' k1)|].
        apply (step_eql F _ (v' :: k)). fits.
      - destruct T as [-> ->]. exists (memqlv v' (k1 :: k2 :: l)). split; [symmetry; eapply memqlv_nil; exact V|].
        apply (step_memql F _ (v' :: k)). fits. }
    destruct X as [t' [Nt St]].
    eapply rok_step; [apply step_dup; fits|].
    eapply rok_step; [apply step_push; fits|].
    eapply rok_step; [exact St|].
    eapply rok_step; [apply (step_cjump F r1 (v' :: k) te fr sls h g Jn (nlab s) r5 t'); [intros _; exact Mn|cbn [jstk]; fits]|].
    cbn [jtaken jstk]. rewrite Nt. destruct (nilp test); [|exact B].
    eapply (IHc d ls own rf el s5 s' F bg r5 r'); try eassumption.

    + destruct A1. pose proof (ck_lex0 _ _ _ _ _ _ K2) as X2. pose proof (ck_lex0 _ _ _ _ _ _ K3) as X3.
      pose proof (ck_lex0 _ _ _ _ _ _ K4) as X4. pose proof (ck_lex0 _ _ _ _ _ _ K5) as X5.
      constructor; try assumption; try lia. congruence.
Qed.

Lemma sim_ecase m e cls : SIM m e ->
  Forall (fun cl : option (list const) * list exp => Forall (SIM m) (snd cl)) cls -> SIM m (ECase e cls).
Proof.
  intros IHe IH. si. cbn [plain] in Hp. ands Hp. unfold with_label in C. set (s0 := set_counters _ _ s) in C.
  pose proof (at_label _ _ _ _ _ _ _ _ _ _ _ _ _ _ (ncell s) A) as A0. fold s0 in A0.
  sq C s1 C1. sq C s2 C2. sq C s3 C3. sq C s4 C4. sq C s5 C5.
  pose proof (comp_ck _ _ _ _ _ _ _ _ C1 Hp LO (a_ok A0)) as K1. kf K1.
  pose proof (case_ck _ _ _ _ _ _ _ _ _ C2 Hp0 LO ltac:(assumption)) as K2. kf K2.
  pose proof (pr_inc _ _ _ C3 ltac:(assumption)) as R3. pose proof (proj2 R3) as K3. kf K3.
  assert (N0 : nlab s0 = S (nlab s)) by reflexivity.
  assert (Ln : (nlab s < nlab s3)%nat) by lia.
  pose proof (pr_emit (ILbl (nlab s)) _ _ Ln C4 ltac:(assumption)) as R4. pose proof (proj2 R4) as K4. kf K4.
  pose proof (pr_emiti _ _ _ C5 ltac:(assumption)) as R5. pose proof (proj2 R5) as K5. kf K5.
  pose proof (pr_emiti _ _ _ C ltac:(assumption)) as R6. pose proof (proj2 R6) as K6. kf K6.
  pose proof (pr_ex _ _ _ _ _ _ _ R6 Q) as Q5. cbn [rev app] in Q5.
  pose proof (pr_ex _ _ _ _ _ _ _ R5 Q5) as Q4. cbn [rev app] in Q4.
  pose proof (pr_ex _ _ _ _ _ _ _ R4 Q4) as Q3. cbn [rev app] in Q3.
  pose proof (pr_ex _ _ _ _ _ _ _ R3 Q3) as Q2. cbn [rev app] in Q2.
  destruct (ck_pos _ _ _ _ _ _ _ _ _ K2 Q2) as [r1 Q1].
  pose proof (a_k A0). pose proof (a_fr A0).
  eapply rok_bind with (f := fun v s => evcase (eval P m) v cls en s).
  { eapply IHe; try eassumption; lia. }
  intros v st1 M1 [v' [j1 [sls1 [h1 [g1 [-> [V [Rm E]]]]]]]]. specialize (V eq_refl).
  assert (A1 : at_ F s1 r1 og bg en st1 j1 (v' :: k) te fr sls1 h1 g1).
  { eapply at_adv; [exact A0|exact K1|exact Q1|exact Rm|cbn [length]; lia..]. }
  eapply rok_ext; [exact E|]. eapply rok_imp; [intros v0 st0 M0; apply post_eff|].
  eapply rok_then.
  { eapply sim_case with (s := s1) (s' := s2) (r' := II Swap :: II Pop :: r'); try eassumption; try lia.
    apply (mfind_pos F (code s3)); [assumption|]. rewrite (proj1 R3). cbn [app].
    apply (label_new s (ncell s)); [exact (a_ok A)|]. fold s0.
    eapply gr_trans; [eapply gr_le; [exact K1|lia]|eapply gr_le; [exact K2|lia]]. }
  intros w st2 M2 [w' [j2 [sls2 [h2 [g2 [-> [W [Rm2 E2]]]]]]]].
  eapply rok_step; [apply step_swap; fits|]. eapply rok_step; [apply step_pop; fits|].
  eapply rok_done; eassumption.
Qed.

(** ** while *)
Lemma ck_weak lo hi de be la s s1 : ck lo hi de be la s s1 -> ck 0 0 de be la s s1.
Proof. intros [A B D E G]. constructor; try assumption. eapply gr_weaken; [|exact B]. lia. Qed.
Lemma ck_label s c : ok s -> ck 0 0 0 0 0 s (set_counters (S (nlab s)) c s).
Proof.
  intros O. constructor; cbn; try lia; [now apply label_ok| |].
  - constructor; cbn; try lia. exists []. split; [reflexivity|constructor].
  - exists []. now split.
Qed.

Lemma while_loop e b F bg og en te fr s r s2 r2 s3 s6 r6 s7 r' d ls own rt :
  fnok F -> fbase F = lex bg -> ls_ok own ls ->
  cbody (comp [] d) ls false b s2 = Some s3 -> pbody plain own false b = true ->
  comp [] d ls false e s6 = Some s7 -> plain own false false e = true ->
  pos F (code s2) r2 -> pos F (code s3) (II Pop :: ILbl rt :: r6) -> pos F (code s6) r6 ->
  (exists tp, pos F (code s7) (IJ Jpt tp :: r') /\
     mfind tp (map (al (fbase F)) (fC F)) = Some (map (al (fbase F)) r2)) ->
  ck 0 0 0 0 0 s s2 -> ck 0 0 0 0 0 s s6 -> cur s + 1 <= flim F -> bcur s <= fblim F ->
  mx s3 <= flim F -> bmx s3 <= fblim F -> mx s7 <= flim F -> bmx s7 <= fblim F ->
  forall m, (forall m', (m' <= m)%nat -> SIM m' e /\ Forall (SIM m') b) ->
  forall st j k sls h g, at_ F s r og bg en st j k te fr sls h g ->
  rok m (eval P m (EWhile e b) en st) (mk F r6 k te fr sls h g) (post false F r' k te fr og bg j st).
Proof.
  intros OK Eb LO Cb Pb Ce Pe Q2 Q3 Q6 [tp [Q7 Mf]] K2 K6 L1 L2 L3 L4 L5 L6.
  induction m as [m IHm] using lt_wf_ind. intros IH st j k sls h g A.
  destruct (IH m (le_n _)) as [IHe IHb].
  rewrite eval_eq. cbn zeta.
  assert (A6 : at_ F s6 r6 og bg en st j k te fr sls h g).
  { eapply at_adv; [exact A|exact K6|exact Q6|exact (a_rel A)|lia..]. }
  pose proof (a_k A). pose proof (a_fr A).
  eapply rok_bind with (f := fun v s => if nilp v then RVal VNil s
    else match evbody (eval P m) b en s with RVal _ s => again P m e b en s | r => r end).
  { eapply IHe with (s := s6) (s' := s7); eassumption. }
  intros v st1 M1 [v' [j1 [sls1 [h1 [g1 [-> [V [Rm E]]]]]]]]. specialize (V eq_refl).
  eapply rok_ext; [exact E|]. rewrite (vrel_nilp _ _ _ V).
  eapply rok_step; [apply (step_cjump F r' k te fr sls1 h1 g1 Jpt tp r2 v'); [intros _; exact Mf|]|].
  { cbn [jstk]. destruct (nilp v'); fits. }
  cbn [jtaken jstk]. destruct (nilp v') eqn:Nv; cbn [negb].
  - destruct v'; try discriminate. eapply rok_done; [intros _; constructor|exact Rm|apply ext_refl].
  - assert (A1 : at_ F s r og bg en st1 j1 k te fr sls1 h1 g1) by (destruct A; constructor; assumption).
    assert (A2 : at_ F s2 r2 og bg en st1 j1 k te fr sls1 h1 g1).
    { eapply at_adv; [exact A1|exact K2|exact Q2|exact Rm|lia..]. }
    eapply rok_bind with (f := fun _ s => again P m e b en s).
    { eapply sim_body with (s := s2) (s' := s3); eassumption. }
    intros w st2 M2 [w' [j2 [sls2 [h2 [g2 [-> [_ [Rm2 E2]]]]]]]].
    eapply rok_ext; [exact E2|].
    destruct m as [|m]; [exists O; eexists; split; [lia|constructor]|]. cbn [again].
    eapply rok_step_S; [apply step_pop; fits|]. eapply rok_step; [apply step_lbl; fits|].
    apply IHm; [lia|intros m' Lm; apply IH; lia|]. destruct A1; constructor; assumption.
Qed.

Lemma sim_while m e b : (forall m', (m' <= m)%nat -> SIM m' e /\ Forall (SIM m') b) -> SIM m (EWhile e b).
Proof.
  intros IH. intros d ls own eff rf s s' F bg r r' og en st j k te fr sls h g C Hp LO OK Eb A Q L1 L2.
  rewrite comp_eq in C; cbn zeta in C.
  cbn [plain] in Hp. ands Hp. unfold with_label in C.
  set (sa := set_counters (S (nlab s)) (ncell s) s) in C.
  set (s0 := set_counters (S (nlab sa)) (ncell sa) sa) in C.
  assert (N1 : nlab sa = S (nlab s)) by reflexivity.
  assert (N0 : nlab s0 = S (S (nlab s))) by reflexivity.
  pose proof (at_label _ _ _ _ _ _ _ _ _ _ _ _ _ _ (ncell s) A) as Aa. fold sa in Aa.
  pose proof (at_label _ _ _ _ _ _ _ _ _ _ _ _ _ _ (ncell sa) Aa) as A0. fold s0 in A0.
  assert (K0 : ck 0 0 0 0 0 s s0).
  { exact (ck_trans _ _ _ _ _ _ _ _ _ _ _ (ck_label s (ncell s) (a_ok A)) (ck_label sa (ncell sa) (a_ok Aa))). }
  sq C s1 C1. sq C s2 C2. sq C s3 C3. sq C s4 C4. sq C s5 C5. sq C s6 C6. sq C s7 C7.
  pose proof (pr_emit (IJ Jmp (nlab sa)) _ _ I C1 (a_ok A0)) as R1. pose proof (proj2 R1) as K1. kf K1.
  assert (Ln : (nlab s < nlab s1)%nat) by lia.
  pose proof (pr_emit (ILbl (nlab s)) _ _ Ln C2 ltac:(assumption)) as R2. pose proof (proj2 R2) as K2. kf K2.
  pose proof (body_ck _ _ _ _ _ _ _ C3 Hp0 LO ltac:(assumption)) as K3. kf K3.
  pose proof (pr_emiti _ _ _ C4 ltac:(assumption)) as R4. pose proof (proj2 R4) as K4. kf K4.
  pose proof (pr_dec 1 _ _ ltac:(lia) C5 ltac:(assumption)) as R5. pose proof (proj2 R5) as K5. kf K5.
  assert (Ln5 : (nlab sa < nlab s5)%nat) by lia.
  pose proof (pr_emit (ILbl (nlab sa)) _ _ Ln5 C6 ltac:(assumption)) as R6. pose proof (proj2 R6) as K6. kf K6.
  pose proof (comp_ck _ _ _ _ _ _ _ _ C7 Hp LO ltac:(assumption)) as K7. kf K7.
  pose proof (pr_emit (IJ Jpt (nlab s)) _ _ I C ltac:(assumption)) as R8. pose proof (proj2 R8) as K8. kf K8.
  pose proof (pr_ex _ _ _ _ _ _ _ R8 Q) as Q7. cbn [rev app] in Q7.
  destruct (ck_pos _ _ _ _ _ _ _ _ _ K7 Q7) as [r6 Q6].
  pose proof (pr_ex _ _ _ _ _ _ _ R6 Q6) as Q5. cbn [rev app] in Q5.
  pose proof (pr_ex _ _ _ _ _ _ _ R5 Q5) as Q4. cbn [rev app] in Q4.
  pose proof (pr_ex _ _ _ _ _ _ _ R4 Q4) as Q3. cbn [rev app] in Q3.
  destruct (ck_pos _ _ _ _ _ _ _ _ _ K3 Q3) as [r2 Q2].
  pose proof (pr_ex _ _ _ _ _ _ _ R2 Q2) as Q1. cbn [rev app] in Q1.
  pose proof (pr_pos _ _ _ _ _ _ _ _ R1 Q1 (a_pos A)) as Er. cbn [rev app] in Er. subst r.
  destruct (a_ok A) as [OA1 [OA2 OA3]]. rewrite Forall_forall in OA3.
  pose proof (proj1 R1) as E1. pose proof (proj1 R2) as E2. cbn [app] in E1, E2.
  assert (Mt : mfind (nlab s) (map (al (fbase F)) (fC F)) = Some (map (al (fbase F)) r2)).
  { apply (mfind_pos F (code s1)); [assumption|]. rewrite E1. intros X. apply OA3 in X. lia. }
  assert (Me : mfind (nlab sa) (map (al (fbase F)) (fC F)) = Some (map (al (fbase F)) r6)).
  { apply (mfind_pos F (code s5)); [assumption|].
    assert (G : gr (S (nlab sa)) s2 s5).
    { eapply gr_trans; [eapply gr_le; [exact K3|lia]|].
      eapply gr_trans; [eapply pr_gr; [exact R4|reflexivity]|eapply pr_gr; [exact R5|reflexivity]]. }
    destruct G as [[new [E5 N5]] _ _ _]. rewrite E5, labs_app. intros X. apply in_app_or in X.
    rewrite Forall_forall in N5. destruct X as [X|X].
    - specialize (N5 _ X). cbn in N5. lia.
    - rewrite E2, E1 in X. destruct X as [X|X]; [lia|].
      change (In (nlab sa) (labs (code s))) in X. apply OA3 in X. lia. }
  assert (Kb : ck 0 0 0 0 0 s s2).
  { exact (ck_trans _ _ _ _ _ _ _ _ _ _ _ (ck_trans _ _ _ _ _ _ _ _ _ _ _ K0 K1) K2). }
  assert (Kc : ck 0 0 0 0 0 s s6).
  { pose proof (ck_trans _ _ _ _ _ _ _ _ _ _ _ (ck_trans _ _ _ _ _ _ _ _ _ _ _ (ck_trans _ _ _ _ _ _ _ _ _ _ _
      (ck_trans _ _ _ _ _ _ _ _ _ _ _ Kb (ck_weak _ _ _ _ _ _ _ K3)) K4) K5) K6) as X.
    exact X. }
  kf Kb. kf Kc. pose proof (a_k A). pose proof (a_fr A).
  eapply rok_step; [apply step_jump; [exact Me|fits]|].
  eapply rok_imp; [intros v0 st0 M0; apply post_eff|].
  eapply while_loop with (s := s) (s2 := s2) (s3 := s3) (s6 := s6) (s7 := s7) (m := m);
    try eassumption; try lia.
  exists (nlab s). now split.
Qed.

(** ** let* and letrec *)
Lemma bind1 x s s1 s2 s' F bg r r' og en st j v v' k te n fr sls h g :
  note_binding x s = Some s1 -> emit_binding x s1 = Some s2 -> dec 1 s2 = Some s' ->
  fnok F -> fbase F = lex bg ->
  at_ F s r og bg en st j (v' :: k) te (n :: fr) sls h g -> vrel j v v' ->
  pos F (code s') r' -> mx s <= flim F -> bmx s <= fblim F ->
  exists e te1 sls1 h1 j1 m,
    steps m (mk F r (v' :: k) te (n :: fr) sls h g)
            (mk F r' k te1 ((nheap [e] + n)%nat :: fr) sls1 h1 g)
    /\ at_ F s' r' (e :: og) bg ((x, length (cells st)) :: en) (more [v] st) j1 k te1
           ((nheap [e] + n)%nat :: fr) sls1 h1 g
    /\ ext og j st j1 (more [v] st) /\ (length (cells st) <= snd e)%nat.
Proof.
  intros C1 C2 C3 OK Eb A V Q L1 L2. set (p := {| req := [x]; opt := []; rest := None |}).
  assert (C : bind_vars (rev (lambda_vars p)) s = Some s').
  { change (bind_vars (rev (lambda_vars p))) with (note_binding x ;; emit_binding x ;; dec 1 ;; skip).
    unfold seq. rewrite C1, C2, C3. reflexivity. }
  assert (VS : Forall2 (vrel j) [v] [v']) by (constructor; [exact V|constructor]).
  destruct (enter p [v] [v'] s s' F bg r r' og en st j k te n fr sls h g eq_refl C OK Eb A VS (le_n _) Q L1 L2)
    as [en' [st' [new [te1 [sls1 [h1 [j1 [m [BA [St [A1 [Ex Fn]]]]]]]]]]]].
  injection BA as <- <-. fold (more [v] st) in A1, Ex.
  pose proof (a_lex A1) as El.
  assert (E1 : exists e, new = [e]).
  { pose proof (a_lex A) as El0. injection C1 as <-. unfold emit_binding in C2. injection C2 as <-.
    injection C3 as <-. cbn in El. rewrite El0 in El. apply (f_equal (@length _)) in El.
    cbn [length] in El. unfold lex in El. rewrite !map_length, !app_length in El.
    destruct new as [|e [|e2 new]]; cbn [length] in El; [lia|now exists e|lia]. }
  destruct E1 as [e ->]. exists e, te1, sls1, h1, j1, m.
  split; [exact St|]. split; [exact A1|]. split; [exact Ex|]. now inversion Fn.
Qed.

Lemma note_ck x s s1 s2 s3 : note_binding x s = Some s1 -> emit_binding x s1 = Some s2 ->
  dec 1 s2 = Some s3 -> ok s -> ck 0 0 (-1) 0 1 s s3.
Proof.
  intros C1 C2 C3 O. apply (CK_bind_vars 0 0 [x]); [|assumption|lia].
  cbn [bind_vars]. unfold seq. rewrite C1, C2, C3. reflexivity.
Qed.

Lemma sim_lets m bs : Forall (fun b : var * list exp => Forall (SIM m) (snd b)) bs ->
  forall d ls own s s' F bg r r' og en st j k te n fr sls h g K Q0,
  clets (comp [] d) ls bs s = Some s' -> plets plain own bs = true -> ls_ok own ls ->
  fnok F -> fbase F = lex bg ->
  at_ F s r og bg en st j k te (n :: fr) sls h g ->
  pos F (code s') r' -> mx s' <= flim F -> bmx s' <= fblim F ->
  (forall new en1 st1 j1 te1 sls1 h1 g1,
     at_ F s' r' (new ++ og) bg en1 st1 j1 k te1 ((nheap new + n)%nat :: fr) sls1 h1 g1 ->
     ext og j st j1 st1 -> Forall (fun e : entry => (length (cells st) <= snd e)%nat) new ->
     rok m (K en1 st1) (mk F r' k te1 ((nheap new + n)%nat :: fr) sls1 h1 g1) Q0) ->
  rok m (evlets (eval P m) bs en st K) (mk F r k te (n :: fr) sls h g) Q0.
Proof.
  intros IH. induction bs as [|[x b] bs IHb];
    intros d ls own s s' F bg r r' og en st j k te n fr sls h g K Q0 C Hp LO OK Eb A Q L1 L2 HK.
  - injection C as <-. pose proof (pos_uniq _ _ _ _ Q (a_pos A)). subst r'. cbn [evlets].
    apply (HK [] en st j te sls h g); [exact A|apply ext_refl|constructor].
  - inversion IH as [|? ? Hb Hbs]; subst. cbn [fst snd] in *. cbn [plets] in Hp. ands Hp.
    cbn [clets] in C. sq C s1 C1. sq C s2 C2. sq C s3 C3. sq C s4 C4.
    pose proof (body_ck _ _ _ _ _ _ _ C1 Hp LO (a_ok A)) as K1. kf K1.
    pose proof (note_ck _ _ _ _ _ C2 C3 C4 ltac:(assumption)) as K2. kf K2.
    pose proof (lets_ck _ _ _ _ _ _ C Hp0 LO ltac:(assumption)) as K3. kf K3.
    destruct (ck_pos _ _ _ _ _ _ _ _ _ K3 Q) as [r4 Q4].
    destruct (ck_pos _ _ _ _ _ _ _ _ _ K2 Q4) as [r1 Q1].
    cbn [evlets].
    eapply rok_bind with (f := fun v s => evlets (eval P m) bs ((x, length (cells s)) :: en)
      {| cells := cells s ++ [v]; globs := globs s |} K).
    { eapply sim_body with (s := s) (s' := s1); try eassumption; lia. }
    intros v st1 M1 [v' [j1 [sls1 [h1 [g1 [-> [V [Rm E]]]]]]]]. specialize (V eq_refl).
    assert (A1 : at_ F s1 r1 og bg en st1 j1 (v' :: k) te (n :: fr) sls1 h1 g1).
    { eapply at_adv; [exact A|exact K1|exact Q1|exact Rm|cbn [length]; lia..]. }
    destruct (bind1 x s1 s2 s3 s4 F bg r1 r4 og en st1 j1 v v' k te n fr sls1 h1 g1)
      as [e [te2 [sls2 [h2 [j2 [n2 [St [A2 [E2 Le]]]]]]]]]; try assumption; try lia.
    eapply rok_steps; [exact St|]. fold (more [v] st1).
    eapply (IHb Hbs) with (s := s4) (s' := s'); try eassumption.
    intros new en3 st3 j3 te3 sls3 h3 g3 A3 E3 Fn.
    pose proof (e_len _ _ _ _ _ E). pose proof (e_len _ _ _ _ _ E2).
    replace (nheap new + (nheap [e] + n))%nat with (nheap (new ++ [e]) + n)%nat in * by (rewrite nheap_app; lia).
    apply (HK (new ++ [e]) en3 st3 j3 te3 sls3 h3 g3).
    + rewrite <- app_assoc. exact A3.
    + eapply ext_new with (new := [e]); [eapply ext_trans; [exact E|exact E2]|exact E3|].
      constructor; [lia|constructor].
    + apply Forall_app. split; [|constructor; [lia|constructor]].
      eapply Forall_impl; [|exact Fn]. cbn beta. intros a L. lia.
Qed.

Lemma fin_unbind m r0 M F r k te te1 fr new og bg j st j1 st1 sls h g :
  mrel F j st og bg te sls h g -> ext og j st j1 st1 ->
  Forall (fun e : entry => (length (cells st) <= snd e)%nat) new ->
  Z.of_nat (length k) + 1 <= flim F -> Z.of_nat (length fr) <= fblim F + 1 ->
  rok m r0 M (post false F (II Unbind :: r) k te1 ((nheap new + 0)%nat :: fr) (new ++ og) bg j1 st1) ->
  rok m r0 M (post false F r k te fr og bg j st).
Proof.
  intros R E Fn L1 L2 H. eapply rok_then; [exact H|].
  intros v st2 M2 [v' [j2 [sls2 [h2 [g2 [-> [V [Rm E2]]]]]]]].
  assert (EX : ext og j st j2 st2) by (eapply ext_new; eassumption).
  assert (HE : henv j2 (og ++ bg) te).
  { eapply henv_mono; [apply (e_sub _ _ _ _ _ EX)|exact (m_env _ _ _ _ _ _ _ _ _ R)]. }
  destruct (mrel_drop _ _ _ _ _ _ _ _ _ _ _ Rm HE) as [R2 Et].
  eapply rok_step; [apply step_unbind; split; cbn [length]; lia|].
  rewrite Nat.add_0_r, Et. eapply rok_done; [exact V|exact R2|exact EX].
Qed.

Lemma sim_elets m bs b : Forall (fun b : var * list exp => Forall (SIM m) (snd b)) bs ->
  Forall (SIM m) b -> SIM m (ELets bs b).
Proof.
  intros IHbs IHb. si. cbn [plain] in Hp. ands Hp. unfold with_frame in C.
  destruct ((emiti InitBind ;; binc ;; clets (comp [] d) ls bs ;;
                  cbody (comp [] d) ls rf b ;; emiti Unbind ;; bdec) s) as [sz|] eqn:C0; [|discriminate].
  injection C as <-. cbn [set_lexb code mx bmx] in Q, L1, L2.
  sq C0 s1 C1. sq C0 s2 C2. sq C0 s3 C3. sq C0 s4 C4. sq C0 s5 C5.
  pose proof (pr_emiti _ _ _ C1 (a_ok A)) as R1.
  pose proof (pr_binc _ _ C2 (pr_ok _ _ _ _ _ R1)) as R2.
  pose proof (pr_trans _ _ _ _ _ _ _ _ _ R1 R2) as R. clear R1 R2. cbn [app] in R. pose proof (proj2 R) as K2. kf K2.
  pose proof (lets_ck _ _ _ _ _ _ C3 Hp LO ltac:(assumption)) as K3. kf K3.
  pose proof (body_ck _ _ _ _ _ _ _ C4 Hp0 LO ltac:(assumption)) as K4. kf K4.
  pose proof (pr_emiti _ _ _ C5 ltac:(assumption)) as R5.
  pose proof (pr_bdec _ _ C0 (pr_ok _ _ _ _ _ R5)) as R6.
  pose proof (pr_trans _ _ _ _ _ _ _ _ _ R5 R6) as R'. clear R5 R6. cbn [app] in R'. pose proof (proj2 R') as K6. kf K6.
  pose proof (pr_ex _ _ _ _ _ _ _ R' Q) as Q4. cbn [rev app] in Q4.
  destruct (ck_pos _ _ _ _ _ _ _ _ _ K4 Q4) as [r3 Q3].
  destruct (ck_pos _ _ _ _ _ _ _ _ _ K3 Q3) as [r2 Q2].
  pose proof (pr_pos _ _ _ _ _ _ _ _ R Q2 (a_pos A)) as Er. cbn [rev app] in Er. subst r.
  assert (A2 : at_ F s2 r2 og bg en st j k te (O :: fr) sls h g).
  { eapply at_adv; [exact A|exact K2|exact Q2|exact (a_rel A)|cbn [length]; lia..]. }
  pose proof (a_k A2). pose proof (a_fr A2) as Afr. cbn [length] in Afr.
  eapply rok_step; [apply step_initbind; fits|].
  eapply rok_imp; [intros v0 st0 M0; apply post_eff|].
  eapply sim_lets with (s := s2) (s' := s3); try eassumption; try lia.
  intros new en1 st1 j1 te1 sls1 h1 g1 A3 E3 Fn.
  eapply fin_unbind; [exact (a_rel A)|exact E3|exact Fn|lia|lia|].
  eapply sim_body with (s := s3) (s' := s4); try eassumption; lia.
Qed.

Lemma nils_sim bs : forall s s' F bg r r' og en st j k te n fr sls h g,
  cnils bs s = Some s' -> fnok F -> fbase F = lex bg ->
  at_ F s r og bg en st j k te (n :: fr) sls h g ->
  pos F (code s') r' -> mx s' <= flim F -> bmx s' <= fblim F ->
  exists en1 st1 new te1 sls1 h1 j1 m,
    bind_all (map (fun b : var * list exp => (fst b, VNil)) bs) en st = (en1, st1)
    /\ steps m (mk F r k te (n :: fr) sls h g) (mk F r' k te1 ((nheap new + n)%nat :: fr) sls1 h1 g)
    /\ at_ F s' r' (new ++ og) bg en1 st1 j1 k te1 ((nheap new + n)%nat :: fr) sls1 h1 g
    /\ ext og j st j1 st1 /\ Forall (fun e : entry => (length (cells st) <= snd e)%nat) new.
Proof.
  induction bs as [|[x b] bs IHb]; intros s s' F bg r r' og en st j k te n fr sls h g C OK Eb A Q L1 L2.
  - injection C as <-. pose proof (pos_uniq _ _ _ _ Q (a_pos A)). subst r'.
    exists en, st, [], te, sls, h, j, O. split; [reflexivity|]. split; [constructor|]. split; [exact A|].
    split; [apply ext_refl|constructor].
  - cbn [cnils] in C. sq C s1 C1. sq C s2 C2. sq C s3 C3. sq C s4 C4.
    pose proof (pr_const _ _ _ C1 (a_ok A)) as R1. pose proof (proj2 R1) as K1. kf K1.
    pose proof (note_ck _ _ _ _ _ C2 C3 C4 ltac:(assumption)) as K2. kf K2.
    pose proof (CK_nils 0 0 _ _ _ C ltac:(assumption) (Nat.le_0_l _)) as K3. kf K3.
    destruct (ck_pos _ _ _ _ _ _ _ _ _ K3 Q) as [r4 Q4].
    destruct (ck_pos _ _ _ _ _ _ _ _ _ K2 Q4) as [r1 Q1].
    pose proof (pr_pos _ _ _ _ _ _ _ _ R1 Q1 (a_pos A)) as Er. cbn [rev app] in Er. subst r.
    assert (A1 : at_ F s1 r1 og bg en st j (VNil :: k) te (n :: fr) sls h g).
    { eapply at_adv; [exact A|exact K1|exact Q1|exact (a_rel A)|cbn [length]; lia..]. }
    destruct (bind1 x s1 s2 s3 s4 F bg r1 r4 og en st j VNil VNil k te n fr sls h g)
      as [e [te2 [sls2 [h2 [j2 [n2 [St [A2 [E2 Le]]]]]]]]]; try assumption; try lia; [constructor|].
    destruct (IHb _ _ _ _ _ _ _ _ _ _ _ _ _ _ _ _ _ C OK Eb A2 Q L1 L2)
      as [en1 [st1 [new [te3 [sls3 [h3 [j3 [n3 [BA [St3 [A3 [E3 Fn]]]]]]]]]]]].
    pose proof (e_len _ _ _ _ _ E2). pose proof (a_k A1). pose proof (a_fr A1).
    replace (nheap new + (nheap [e] + n))%nat with (nheap (new ++ [e]) + n)%nat in * by (rewrite nheap_app; lia).
    exists en1, st1, (new ++ [e]), te3, sls3, h3, j3, (S (n2 + n3)). split; [exact BA|]. split; [|split; [|split]].
    + econstructor; [apply (step_push F r1 k te (n :: fr) sls h g KNil); fits|].
      eapply steps_trans; [exact St|exact St3].
    + rewrite <- app_assoc. exact A3.
    + eapply ext_new with (new := [e]); [exact E2|exact E3|]. constructor; [lia|constructor].
    + apply Forall_app. split; [|constructor; [lia|constructor]].
      eapply Forall_impl; [|exact Fn]. cbn beta. intros a L. lia.
Qed.

Lemma sim_named m x b : Forall (SIM m) b ->
  forall d ls own s s' F bg r r' og en st j k te fr sls h g,
  cbody_named (comp [] d) ls x b s = Some s' -> pnamed plain own x b = true -> ls_ok own ls ->
  fnok F -> fbase F = lex bg ->
  at_ F s r og bg en st j k te fr sls h g ->
  pos F (code s') r' -> mx s' <= flim F -> bmx s' <= fblim F ->
  rok m (evbody (eval P m) b en st) (mk F r k te fr sls h g) (post false F r' k te fr og bg j st).
Proof.
  intros IH. induction b as [|e b IHb]; intros d ls own s s' F bg r r' og en st j k te fr sls h g
    C Hp LO OK Eb A Q L1 L2.
  - eapply sim_body with (b := []) (d := d) (ls := ls) (own := own) (rf := false) (s := s); try eassumption; reflexivity.
  - inversion IH as [|? ? He Hb]; subst. destruct b as [|e2 b].
    + assert (N : is_lambda e = false -> rok m (evbody (eval P m) [e] en st) (mk F r k te fr sls h g)
                     (post false F r' k te fr og bg j st)).
      { intros N. assert (C' : comp [] d ls false e s = Some s') by (destruct e; try exact C; discriminate).
        assert (Hp' : plain own false false e = true) by (destruct e; try exact Hp; discriminate).
        exact (He _ _ _ _ _ _ _ _ _ _ _ _ _ _ _ _ _ _ _ _ _ C' Hp' LO OK Eb A Q L1 L2). }
      destruct e as [c|y|y e|y e|y p lb|o a|o a|a|f a|p lb|p lb a|f a|lb|e lb|cl|e cl|e lb|bs lb|bs lb]; try (apply N; reflexivity).
      clear N He IH IHb. cbn [pnamed] in Hp. ands Hp. cbn [cbody_named] in C.
      destruct (lambda_sim _ _ _ _ _ _ _ _ _ _ _ _ _ _ _ _ _ _ _ _ _ _ C Hp0 Hp LO OK Eb A Q L1 L2)
        as [t [CR St]].
      cbn [evbody]. rewrite eval_eq. cbn beta iota zeta.
      eapply rok_step; [exact St|].
      eapply rok_done; [intros _; constructor; exact CR|exact (a_rel A)|apply ext_refl].
    + assert (C' : (comp [] d ls false e ;; emiti Pop ;; dec 1 ;; cbody_named (comp [] d) ls x (e2 :: b)) s = Some s')
        by (destruct e; exact C).
      assert (Hp' : plain own true false e && pnamed plain own x (e2 :: b) = true) by (destruct e; exact Hp).
      clear C Hp. rename C' into C. rename Hp' into Hp.
      ands Hp. sq C s1 C1. sq C s2 C2. sq C s3 C3.
      pose proof (comp_ck _ _ _ _ _ _ _ _ C1 Hp LO (a_ok A)) as K1. kf K1.
      pose proof (pr_emiti _ _ _ C2 ltac:(assumption)) as R2.
      pose proof (pr_dec 1 _ _ ltac:(lia) C3 (pr_ok _ _ _ _ _ R2)) as R3.
      pose proof (pr_trans _ _ _ _ _ _ _ _ _ R2 R3) as R. cbn [app] in R. clear R2 R3.
      pose proof (proj2 R) as K2. kf K2.
      pose proof (named_ck _ _ _ _ _ _ _ C Hp0 LO ltac:(assumption)) as K3. kf K3.
      destruct (ck_pos _ _ _ _ _ _ _ _ _ K3 Q) as [r3 Q3].
      pose proof (pr_ex _ _ _ _ _ _ _ R Q3) as Q1. cbn [rev app] in Q1.
      change (evbody (eval P m) (e :: e2 :: b) en st) with
        (match eval P m e en st with
         | RVal _ s => evbody (eval P m) (e2 :: b) en s | RErr e s => RErr e s | ROut => ROut end).
      eapply rok_bind with (f := fun _ s => evbody (eval P m) (e2 :: b) en s).
      { eapply He; try eassumption; lia. }
      intros v st1 M1 [v' [j1 [sls1 [h1 [g1 [-> [_ [Rm E]]]]]]]].
      assert (A1 : at_ F s1 (II Pop :: r3) og bg en st1 j1 (v' :: k) te fr sls1 h1 g1).
      { eapply at_adv; [exact A|exact K1|exact Q1|exact Rm|cbn [length]; lia..]. }
      assert (A3 : at_ F s3 r3 og bg en st1 j1 k te fr sls1 h1 g1).
      { eapply at_adv; [exact A1|exact K2|exact Q3|exact Rm|cbn [length]; lia..]. }
      pose proof (a_k A3). pose proof (a_fr A3).
      eapply rok_step; [apply step_pop; fits|].
      eapply rok_ext; [exact E|]. eapply (IHb Hb); eassumption.
Qed.

Lemma sim_sets m bs : Forall (fun b : var * list exp => Forall (SIM m) (snd b)) bs ->
  forall d ls own s s' F bg r r' og en st j k te fr sls h g K Q0,
  csets (comp [] d) ls bs s = Some s' -> precs plain own bs = true -> ls_ok own ls ->
  fnok F -> fbase F = lex bg ->
  at_ F s r og bg en st j k te fr sls h g ->
  pos F (code s') r' -> mx s' <= flim F -> bmx s' <= fblim F ->
  (forall st1 j1 sls1 h1 g1,
     at_ F s' r' og bg en st1 j1 k te fr sls1 h1 g1 -> ext og j st j1 st1 ->
     rok m (K st1) (mk F r' k te fr sls1 h1 g1) Q0) ->
  rok m (evsets (eval P m) bs en st K) (mk F r k te fr sls h g) Q0.
Proof.
  intros IH. induction bs as [|[x b] bs IHb];
    intros d ls own s s' F bg r r' og en st j k te fr sls h g K Q0 C Hp LO OK Eb A Q L1 L2 HK.
  - injection C as <-. pose proof (pos_uniq _ _ _ _ Q (a_pos A)). subst r'. cbn [evsets].
    apply (HK st j sls h g); [exact A|apply ext_refl].
  - inversion IH as [|? ? Hb Hbs]; subst. cbn [fst snd] in *. cbn [precs] in Hp. ands Hp.
    cbn [csets] in C. sq C s1 C1. sq C s2 C2. sq C s3 C3.
    pose proof (named_ck _ _ _ _ _ _ _ C1 Hp LO (a_ok A)) as K1. kf K1.
    pose proof (CK_varset 0 0 x _ _ C2 ltac:(assumption) (Nat.le_0_l _)) as K2. kf K2.
    pose proof (pr_dec 1 _ _ ltac:(lia) C3 ltac:(assumption)) as R3. pose proof (proj2 R3) as K3. kf K3.
    pose proof (sets_ck _ _ _ _ _ _ C Hp0 LO ltac:(assumption)) as K4. kf K4.
    destruct (ck_pos _ _ _ _ _ _ _ _ _ K4 Q) as [r3 Q3].
    pose proof (pr_ex _ _ _ _ _ _ _ R3 Q3) as Q2. cbn [rev app] in Q2.
    destruct (ck_pos _ _ _ _ _ _ _ _ _ K2 Q2) as [r1 Q1].
    cbn [evsets].
    eapply rok_bind with (f := fun v s => match assign x v en s with
      | RVal _ s => evsets (eval P m) bs en s K | r => r end).
    { eapply sim_named with (s := s) (s' := s1); try eassumption; lia. }
    intros v st1 M1 [v' [j1 [sls1 [h1 [g1 [-> [V [Rm E]]]]]]]]. specialize (V eq_refl).
    assert (A1 : at_ F s1 r1 og bg en st1 j1 (v' :: k) te fr sls1 h1 g1).
    { eapply at_adv; [exact A|exact K1|exact Q1|exact Rm|cbn [length]; lia..]. }
    eapply rok_bind with (f := fun _ s => evsets (eval P m) bs en s K).
    { eapply (varset_sim m x s1 s2); try eassumption; lia. }
    intros w st2 M2 [-> [sls2 [h2 [g2 [-> [Rm2 E2]]]]]].
    assert (A2 : at_ F s2 r3 og bg en st2 j1 k te fr sls2 h2 g2).
    { destruct A1 as [B1 B2 B3 B4 B5 B6 B7]. constructor; try assumption; try lia.
      - now rewrite (ck_lex0 _ _ _ _ _ _ K2).
      - pose proof (a_k A). lia. }
    assert (A3 : at_ F s3 r3 og bg en st2 j1 k te fr sls2 h2 g2).
    { pose proof (a_k A). destruct A2 as [B1 B2 B3 B4 B5 B6 B7]. constructor; try assumption; try lia.
      now rewrite (ck_lex0 _ _ _ _ _ _ K3). }
    eapply (IHb Hbs) with (s := s3) (s' := s'); try eassumption.
    intros st3 j3 sls3 h3 g3 A4 E4. apply (HK st3 j3); [exact A4|].
    eapply ext_trans; [exact E|]. eapply ext_trans; eassumption.
Qed.

Lemma sim_eletrec m bs b : Forall (fun b : var * list exp => Forall (SIM m) (snd b)) bs ->
  Forall (SIM m) b -> SIM m (ELetrec bs b).
Proof.
  intros IHbs IHb. si. cbn [plain] in Hp. ands Hp. apply negb_true_iff in Hp.
  unfold with_frame in C. cbn beta in C.
  destruct ((emiti InitBind ;; binc ;; cnils bs ;; csets (comp [] d) ls bs) s) as [s4|] eqn:C0; [|discriminate].
  rewrite (loop_none _ _ s4 Hp) in C.
  destruct ((cbody (comp [] d) ls rf b ;; emiti Unbind ;; bdec) s4) as [sz|] eqn:C5; [|discriminate].
  injection C as <-. cbn [set_lexb code mx bmx] in Q, L1, L2.
  sq C0 s1 C1. sq C0 s2 C2. sq C0 s3 C3. sq C5 s5 C4. sq C5 s6 C6.
  pose proof (pr_emiti _ _ _ C1 (a_ok A)) as R1.
  pose proof (pr_binc _ _ C2 (pr_ok _ _ _ _ _ R1)) as R2.
  pose proof (pr_trans _ _ _ _ _ _ _ _ _ R1 R2) as R. clear R1 R2. cbn [app] in R. pose proof (proj2 R) as K2. kf K2.
  pose proof (CK_nils 0 0 _ _ _ C3 ltac:(assumption) (Nat.le_0_l _)) as K3. kf K3.
  pose proof (sets_ck _ _ _ _ _ _ C0 Hp1 LO ltac:(assumption)) as K4. kf K4.
  pose proof (body_ck _ _ _ _ _ _ _ C4 Hp0 LO ltac:(assumption)) as K5. kf K5.
  pose proof (pr_emiti _ _ _ C6 ltac:(assumption)) as R5.
  pose proof (pr_bdec _ _ C5 (pr_ok _ _ _ _ _ R5)) as R6.
  pose proof (pr_trans _ _ _ _ _ _ _ _ _ R5 R6) as R'. clear R5 R6. cbn [app] in R'. pose proof (proj2 R') as K6. kf K6.
  pose proof (pr_ex _ _ _ _ _ _ _ R' Q) as Q5. cbn [rev app] in Q5.
  destruct (ck_pos _ _ _ _ _ _ _ _ _ K5 Q5) as [r4 Q4].
  destruct (ck_pos _ _ _ _ _ _ _ _ _ K4 Q4) as [r3 Q3].
  destruct (ck_pos _ _ _ _ _ _ _ _ _ K3 Q3) as [r2 Q2].
  pose proof (pr_pos _ _ _ _ _ _ _ _ R Q2 (a_pos A)) as Er. cbn [rev app] in Er. subst r.
  assert (A2 : at_ F s2 r2 og bg en st j k te (O :: fr) sls h g).
  { eapply at_adv; [exact A|exact K2|exact Q2|exact (a_rel A)|cbn [length]; lia..]. }
  pose proof (a_k A2). pose proof (a_fr A2) as Afr. cbn [length] in Afr.
  eapply rok_step; [apply step_initbind; fits|].
  eapply rok_imp; [intros v0 st0 M0; apply post_eff|].
  destruct (nils_sim bs s2 s3 F bg r2 r3 og en st j k te O fr sls h g)
    as [en1 [st1 [new [te1 [sls1 [h1 [j1 [n1 [BA [St [A3 [E3 Fn]]]]]]]]]]]]; try assumption; try lia.
  rewrite BA. eapply rok_steps; [exact St|].
  eapply sim_sets with (s := s3) (s' := s4); try eassumption; try lia.
  intros st4 j4 sls4 h4 g4 A4 E4.
  eapply fin_unbind; [exact (a_rel A)| |exact Fn|lia|lia|].
  { eapply ext_new; [exact E3|exact E4|exact Fn]. }
  eapply sim_body with (s := s4) (s' := s5); try eassumption; lia.
Qed.

(** ** Functions called where they are written *)
Lemma first_args_eq {C} n : forall l : list (val C),
  first_args n l = firstn n l ++ repeat VNil (n - length l).
Proof.
  induction n as [|n IH]; intros l; [reflexivity|]. destruct l as [|v l]; cbn [first_args firstn app length Nat.sub repeat].
  - rewrite IH. cbn [length]. rewrite firstn_nil, Nat.sub_0_r. reflexivity.
  - now rewrite IH.
Qed.
Lemma args_stack {C} r o (vs : list (val C)) : (r <= length vs)%nat ->
  repeat VNil (o - (length vs - r)) ++ rev vs
  = rev (skipn o (skipn r vs)) ++ rev (firstn r vs ++ first_args o (skipn r vs)).
Proof.
  intros L. rewrite first_args_eq, <- rev_app_distr, <- app_assoc, <- app_assoc.
  rewrite <- (firstn_skipn r vs) at 2. set (l := skipn r vs).
  assert (Ll : length l = (length vs - r)%nat) by (unfold l; apply skipn_length).
  rewrite <- Ll. rewrite rev_app_distr, app_assoc, rev_app_distr. f_equal.
  destruct (Nat.le_gt_cases o (length l)) as [H|H].
  - replace (o - length l)%nat with O by lia. cbn [repeat app]. now rewrite firstn_skipn.
  - rewrite firstn_all2, skipn_all2 by lia. rewrite app_nil_r, rev_app_distr, repeat_rev. reflexivity.
Qed.

Lemma pop_plain xs : forall s,
  pop_inline (plain_vars xs) 0 (fun x => note_binding x ;; emit_binding x) s = bind_vars xs s.
Proof.
  induction xs as [|x xs IH]; intros s; cbn [plain_vars map pop_inline bind_vars]; [reflexivity|].
  unfold seq. destruct (note_binding x s) as [s1|]; [|reflexivity].
  destruct (emit_binding x s1) as [s2|]; [|reflexivity]. destruct (dec 1 s2); [|reflexivity]. apply IH.
Qed.
Definition pre_rest (p : params) (n : nat) : M :=
  match rest p with
  | Some _ => compile_constant KNil ;; times n (emiti (Op OCons) ;; dec 1)
  | None => skip
  end.
Lemma pop_eq p n s :
  pop_inline (match rest p with Some x => [(x, Some n)] | None => [] end
              ++ rev (plain_vars (req p ++ opt p))) 0 (fun x => note_binding x ;; emit_binding x) s
  = (pre_rest p n ;; bind_vars (rev (lambda_vars p))) s.
Proof.
  unfold pre_rest, lambda_vars. rewrite plain_vars_rev. destruct (rest p) as [x|].
  - replace (rev (req p ++ opt p ++ [x])) with (x :: rev (req p ++ opt p))
      by (rewrite app_assoc, (rev_app_distr (req p ++ opt p)); reflexivity).
    cbn [app pop_inline bind_vars]. unfold seq.
    destruct (compile_constant KNil s) as [s1|]; [|reflexivity].
    match goal with |- match ?t with _ => _ end = _ => destruct t as [s2|]; [|reflexivity] end.
    destruct (note_binding x s2) as [s3|]; [|reflexivity].
    destruct (emit_binding x s3) as [s4|]; [|reflexivity]. destruct (dec 1 s4) as [s5|]; [|reflexivity].
    apply pop_plain.
  - cbn [app]. rewrite pop_plain, app_nil_r. reflexivity.
Qed.

Lemma iblock_sim m b : Forall (SIM m) b ->
  forall p d ls own rf s s' F bg r' og en st j k te fr sls h g,
  with_lambda None p 0 true ls (fun lr =>
    emit (ILbl (llabel lr)) ;; cbody (comp [] d) (lr :: ls) rf b) s = Some s' ->
  pbody plain own rf b = true -> ls_ok own ls -> ok s ->
  fnok F -> fbase F = lex bg -> pos F (code s') r' -> mx s' <= flim F -> bmx s' <= fblim F ->
  ck 0 0 1 0 0 s s' /\
  forall r, at_ F s r og bg en st j k te fr sls h g ->
  rok m (evbody (eval P m) b en st) (mk F r k te fr sls h g) (post false F r' k te fr og bg j st).
Proof.
  intros IH p d ls own rf s s' F bg r' og en st j k te fr sls h g C Hp LO O OK Eb Q L1 L2.
  unfold with_lambda, with_label in C. cbn beta in C.
  set (s0 := set_counters (S (nlab s)) (ncell s) s) in C.
  match type of C with (emit (ILbl (llabel ?x)) ;; _) _ = _ => set (lr := x) in C end.
  assert (LO' : ls_ok own (lr :: ls)) by (apply ls_ok_inline; [assumption|reflexivity|reflexivity]).
  sq C s1 C1.
  assert (Ln : (llabel lr < nlab s0)%nat) by (cbn; lia).
  pose proof (ck_label s (ncell s) O) as K0. fold s0 in K0. kf K0.
  pose proof (pr_emit (ILbl (llabel lr)) _ _ Ln C1 ltac:(assumption)) as R1. pose proof (proj2 R1) as K1. kf K1.
  pose proof (body_ck _ _ _ _ _ _ _ C Hp LO' ltac:(assumption)) as K2. kf K2.
  split.
  { exact (ck_trans _ _ _ _ _ _ _ _ _ _ _ (ck_trans _ _ _ _ _ _ _ _ _ _ _ K0 K1) (ck_weak _ _ _ _ _ _ _ K2)). }
  intros r A.
  destruct (ck_pos _ _ _ _ _ _ _ _ _ K2 Q) as [r1 Q1].
  pose proof (pr_pos _ _ _ _ _ _ _ _ R1 Q1 (a_pos A)) as Er. cbn [rev app] in Er. subst r.
  pose proof (at_label _ _ _ _ _ _ _ _ _ _ _ _ _ _ (ncell s) A) as A0. fold s0 in A0.
  pose proof (a_k A0). pose proof (a_fr A0).
  eapply rok_step; [apply step_lbl; fits|].
  eapply sim_body with (s := s1) (s' := s'); try eassumption.
  eapply at_adv; [exact A0|exact K1|exact Q1|exact (a_rel A)|lia..].
Qed.

Lemma pre_ck p n s s1 : pre_rest p n s = Some s1 -> ok s ->
  ck 0 0 (match rest p with Some _ => 1 - Z.of_nat n | None => 0 end) 0 0 s s1
  /\ (rest p <> None -> cur s + 1 <= mx s1).
Proof.
  intros C O. unfold pre_rest in C. destruct (rest p) as [x|].
  - sq C s2 C2. pose proof (pr_const _ _ _ C2 O) as R2. pose proof (proj2 R2) as K2. kf K2.
    pose proof (pr_decs _ _ _ _ C ltac:(assumption)) as R3. pose proof (proj2 R3) as K3. kf K3. split.
    + replace (1 - Z.of_nat n) with (1 + - Z.of_nat n) by lia.
      exact (ck_trans _ _ _ _ _ _ _ _ _ _ _ K2 K3).
    + intros _. lia.
  - split; [|congruence]. apply CK_skip; [exact C|assumption|lia].
Qed.
Lemma pre_steps p n s s1 F r r1 te fr sls h g (ws : list tval) k :
  pre_rest p n s = Some s1 -> ok s -> pos F (code s) r -> pos F (code s1) r1 ->
  Z.of_nat (length ws) + Z.of_nat (length k) <= cur s -> mx s1 <= flim F ->
  Z.of_nat (length fr) <= fblim F + 1 -> length ws = (match rest p with Some _ => n | None => 0 end)%nat ->
  exists m, steps m (mk F r (rev ws ++ k) te fr sls h g)
    (mk F r1 (match rest p with Some _ => [listv ws] | None => [] end ++ k) te fr sls h g).
Proof.
  intros C O Q Q1 L1 L2 L3 Lw. destruct (pre_ck _ _ _ _ C O) as [K Mx]. kf K. unfold pre_rest in C.
  destruct (rest p) as [x|].
  - specialize (Mx ltac:(discriminate)). sq C s2 C2. pose proof (pr_const _ _ _ C2 O) as R2. pose proof (proj2 R2) as K2. kf K2.
    pose proof (pr_decs _ _ _ _ C ltac:(assumption)) as R3.
    pose proof (pr_ex _ _ _ _ _ _ _ R3 Q1) as Q2. rewrite repeat_rev in Q2.
    pose proof (pr_pos _ _ _ _ _ _ _ _ R2 Q2 Q) as Er. cbn [rev app] in Er. subst r.
    exists (S (length ws)). econstructor.
    + apply (step_push F _ (rev ws ++ k) te fr sls h g KNil). split; cbn [length]; rewrite ?app_length, ?rev_length; lia.
    + rewrite <- Lw. cbn [app]. rewrite <- listv_fold. apply cons_steps; lia.
  - injection C as <-. destruct ws; [|discriminate]. pose proof (pos_uniq _ _ _ _ Q Q1). subst r1.
    exists 0%nat. constructor.
Qed.

Lemma inline_sim m b p : Forall (SIM m) b ->
  forall d ls own rf s s' F bg r r' og en st j k te fr sls h g vs vs',
  cinline (fun ls => cbody (comp [] d) ls rf b) ls p (length vs) None s = Some s' ->
  distinct (lambda_vars p) = true -> surplus p (length vs) = false ->
  pbody plain own rf b = true -> ls_ok own ls -> fnok F -> fbase F = lex bg ->
  at_ F s r og bg en st j (rev vs' ++ k) te fr sls h g -> Forall2 (vrel j) vs vs' ->
  pos F (code s') r' -> mx s' <= flim F -> bmx s' <= fblim F ->
  rok m (match bind_params p vs with
         | None => RErr Missing st
         | Some bs => let '(en, s) := bind_all bs en st in evbody (eval P m) b en s
         end)
    (mk F r (rev vs' ++ k) te fr sls h g) (post false F r' k te fr og bg j st).
Proof.
  intros IH d ls own rf s s' F bg r r' og en st j k te fr sls h g vs vs' C D Su Hp LO OK Eb A VS Q L1 L2.
  pose proof (Forall2_length _ _ _ VS) as LV.
  unfold cinline in C. rewrite scan_eq in C. rewrite bind_params_eq.
  destruct (length (req p) <=? length vs)%nat eqn:En; [|discriminate]. apply Nat.leb_le in En. cbn zeta in C.
  set (kk := (length vs - length (req p) - length (opt p))%nat) in *.
  set (nn := (length (opt p) - (length vs - length (req p)))%nat) in *.
  assert (lft0 : match rest p with Some _ => O | None => kk end = O).
  { unfold surplus in Su. destruct (rest p); [reflexivity|]. subst kk.
    apply negb_false_iff, Nat.leb_le in Su. lia. }
  rewrite lft0 in C.
  sq C s1 C1. unfold with_frame in C.
  match type of C with match match ?vs with _ => _ end _ with _ => _ end = _ => set (vars := vs) in C end.
  match type of C with match ?t with _ => _ end = _ => destruct t as [sz|] eqn:CZ; [|discriminate] end.
  injection C as <-. cbn [set_lexb code mx bmx] in Q, L1, L2.
  pose proof (pr_incs _ _ _ _ C1 (a_ok A)) as R1. pose proof (proj2 R1) as K1. kf K1.
  pose proof (a_k A) as Ak. pose proof (a_fr A) as Afr. rewrite app_length, rev_length in Ak.
  set (ws := skipn (length (opt p)) (skipn (length (req p)) vs')).
  set (us := firstn (length (req p)) vs' ++ first_args (length (opt p)) (skipn (length (req p)) vs')).
  assert (Es : repeat VNil nn ++ rev vs' = rev ws ++ rev us).
  { subst nn. rewrite LV. apply args_stack. lia. }
  assert (Lws : length ws = kk).
  { unfold ws. rewrite !skipn_length. subst kk. lia. }
  assert (Epv : pvals p vs' = us ++ match rest p with Some _ => [listv ws] | None => [] end).
  { unfold pvals, us. now rewrite <- app_assoc. }
  assert (Lr : length (rev ws ++ rev us) = (nn + length vs')%nat).
  { rewrite <- Es, app_length, repeat_length, rev_length. reflexivity. }
  rewrite app_length, !rev_length in Lr.
  destruct vars as [|v0 vars'] eqn:Ev.
  - (* no variables *)
    assert (E0 : lambda_vars p = [] /\ vs = []).
    { subst vars. apply app_eq_nil in Ev. destruct Ev as [E1 E2].
      destruct (rest p) eqn:Er; [discriminate|].
      apply (f_equal (@length _)) in E2. rewrite plain_vars_rev in E2. unfold plain_vars in E2.
      rewrite map_length, rev_length, app_length in E2. cbn [length] in *.
      unfold surplus in Su. rewrite Er in Su. apply negb_false_iff, Nat.leb_le in Su. split.
      - unfold lambda_vars. rewrite Er.
        destruct (req p); [|cbn in E2; lia]. destruct (opt p); [reflexivity|cbn in E2; lia].
      - destruct vs; [reflexivity|]. cbn [length] in *. lia. }
    destruct E0 as [El ->]. inversion VS; subst vs'. cbn [rev app] in *.
    assert (nn = O).
    { subst nn. unfold lambda_vars in El. apply (f_equal (@length _)) in El. rewrite !app_length in El. cbn [length] in El. lia. }
    assert (E1 : nn = 0%nat) by assumption. rewrite E1 in *. cbn [repeat rev app] in *. cbn [times] in C1, CZ.
    injection C1 as <-. unfold seq at 1 in CZ. cbn in CZ.
    rewrite El. cbn [combine bind_all].
    change (with_lambda None p 0 true ls (fun lr => emit (ILbl (llabel lr)) ;; cbody (comp [] d) (lr :: ls) rf b) s = Some sz) in CZ.
    destruct (iblock_sim m b IH p d ls own rf s sz F bg r' og en st j k te fr sls h g CZ Hp LO (a_ok A) OK Eb Q L1 L2)
      as [_ X]. exact (X r A).
  - (* a frame *)
    sq CZ s2 C2. sq CZ s3 C3. sq CZ s4 C4. sq CZ s5 C5. sq CZ s6 C6.
    rewrite <- Ev in C4. subst vars. rewrite pop_eq in C4. sq C4 sp0 Cp.
    pose proof (pr_emiti _ _ _ C2 ltac:(assumption)) as R2.
    pose proof (pr_binc _ _ C3 (pr_ok _ _ _ _ _ R2)) as R3.
    pose proof (pr_trans _ _ _ _ _ _ _ _ _ R2 R3) as R. clear R2 R3. cbn [app] in R. pose proof (proj2 R) as K3. kf K3.
    destruct (pre_ck _ _ _ _ Cp ltac:(assumption)) as [Kp Mp]. kf Kp.
    pose proof (CK_bind_vars 0 0 _ _ _ C4 ltac:(assumption) (Nat.le_0_l _)) as K4. kf K4.
    pose proof C6 as C6'. pose proof CZ as CZ'.
    assert (O5 : ok s5 /\ mx s4 <= mx s5 /\ bmx s4 <= bmx s5 /\ bcur s5 = bcur s4).
    { unfold with_lambda, with_label in C5. cbn beta in C5.
      match type of C5 with (emit (ILbl (llabel ?x)) ;; _) ?y = _ => set (lr := x) in C5; set (y0 := y) in C5 end.
      assert (LO' : ls_ok own (lr :: ls)) by (apply ls_ok_inline; [assumption|reflexivity|reflexivity]).
      sq C5 t1 D1. pose proof (ck_label s4 (ncell s4) ltac:(assumption)) as T0. fold y0 in T0. kf T0.
      assert (Ln : (llabel lr < nlab y0)%nat) by (cbn; lia).
      pose proof (pr_emit (ILbl (llabel lr)) _ _ Ln D1 ltac:(assumption)) as T1. pose proof (proj2 T1) as T2. kf T2.
      pose proof (body_ck _ _ _ _ _ _ _ C5 Hp LO' ltac:(assumption)) as T3. kf T3.
      split; [assumption|]. repeat split; lia. }
    destruct O5 as [O5 [M1 [M2 M3]]].
    pose proof (pr_emiti _ _ _ C6 O5) as R6.
    pose proof (pr_bdec _ _ CZ (pr_ok _ _ _ _ _ R6)) as R7.
    pose proof (pr_trans _ _ _ _ _ _ _ _ _ R6 R7) as R'. clear R6 R7. cbn [app] in R'. pose proof (proj2 R') as K6. kf K6.
    pose proof (pr_ex _ _ _ _ _ _ _ R' Q) as Q5. cbn [rev app] in Q5.
    destruct (iblock_sim m b IH p d ls own rf s4 s5 F bg (II Unbind :: r') og en st j k te fr sls h g C5 Hp LO
      ltac:(assumption) OK Eb Q5 ltac:(lia) ltac:(lia)) as [K5 _]. kf K5.
    destruct (ck_pos _ _ _ _ _ _ _ _ _ K5 Q5) as [r4 Q4].
    destruct (ck_pos _ _ _ _ _ _ _ _ _ K4 Q4) as [rp Qp].
    destruct (ck_pos _ _ _ _ _ _ _ _ _ Kp Qp) as [r3 Q3].
    pose proof (pr_ex _ _ _ _ _ _ _ R Q3) as Q1. cbn [rev app] in Q1.
    pose proof (pr_pos _ _ _ _ _ _ _ _ R1 Q1 (a_pos A)) as Er. rewrite repeat_rev in Er. subst r.
    eapply rok_steps; [apply nil_steps; rewrite ?app_length, ?rev_length; lia|].
    rewrite app_assoc, Es, <- app_assoc.
    eapply rok_step; [apply step_initbind; split; rewrite ?app_length, ?rev_length; cbn [length]; lia|].
    destruct (pre_steps p kk s3 sp0 F r3 rp te (O :: fr) sls h g ws (rev us ++ k)) as [n1 S1]; try assumption; try lia.
    { rewrite app_length, rev_length. lia. }
    { cbn [length]. lia. }
    { destruct (rest p); [assumption|]. rewrite Lws. assumption. }
    eapply rok_steps; [exact S1|].
    assert (Ek : match rest p with Some _ => [listv ws] | None => [] end ++ rev us ++ k = rev (pvals p vs') ++ k).
    { rewrite Epv, rev_app_distr. destruct (rest p); cbn [rev app]; reflexivity. }
    rewrite Ek.
    assert (Lus : Z.of_nat (length (rev (pvals p vs') ++ k)) <= cur sp0).
    { rewrite app_length, rev_length, Epv, app_length. destruct (rest p); cbn [length]; lia. }
    assert (Ap : at_ F sp0 rp og bg en st j (rev (pvals p vs') ++ k) te (O :: fr) sls h g).
    { destruct A as [B1 B2 B3 B4 B5 B6 B7]. constructor; try assumption.
      - rewrite (ck_lex0 _ _ _ _ _ _ Kp), (ck_lex0 _ _ _ _ _ _ K3), (ck_lex0 _ _ _ _ _ _ K1). assumption.
      - cbn [length]. lia. }
    destruct (enter p vs vs' sp0 s4 F bg rp r4 og en st j k te O fr sls h g D C4 OK Eb Ap VS En Q4)
      as [en' [st' [new [te1 [sls1 [h1 [j1 [n2 [BA [S2 [Aa [Ex Fn]]]]]]]]]]]]; [lia|lia|].
    rewrite BA. eapply rok_steps; [exact S2|]. pose proof (a_k Aa).
    eapply fin_unbind; [exact (a_rel A)|exact Ex|exact Fn|lia|lia|].
    destruct (iblock_sim m b IH p d ls own rf s4 s5 F bg (II Unbind :: r') (new ++ og) en' st' j1 k te1
      ((nheap new + 0)%nat :: fr) sls1 h1 g C5 Hp LO ltac:(assumption) OK Eb Q5 ltac:(lia) ltac:(lia)) as [_ X].
    exact (X r4 Aa).
Qed.

Lemma sim_inline m p b args : Forall (SIM m) b -> Forall (SIM m) args -> SIM m (EInline p b args).
Proof.
  intros IHb IHa. si. cbn [plain] in Hp. ands Hp.
  destruct d as [|d]; [discriminate|]. sq C s1 C1.
  assert (Su : surplus p (length args) = false).
  { unfold surplus. destruct (rest p); [reflexivity|]. now rewrite Hp2. }
  pose proof (args_ck _ _ _ _ _ _ C1 Hp1 LO (a_ok A)) as K1. kf K1.
  assert (K2 : ck 0 0 (1 - Z.of_nat (length args)) 0 0 s1 s').
  { assert (X : CK 0 0 (1 - Z.of_nat (length args)) 0 0 (cinline (fun ls => cbody (comp [] d) ls rf b) ls p (length args) None)).
    { eapply CK_inline; try eassumption; [lia|reflexivity|]. intros lr _ LO'.
      eapply (CK_body (S (bsize b)) (fun e He => CK_comp _ e He)); try eassumption; lia. }
    apply X; [exact C|assumption|lia]. }
  kf K2. destruct (ck_pos _ _ _ _ _ _ _ _ _ K2 Q) as [r1 Q1].
  eapply rok_imp; [intros v0 st0 M0; apply post_eff|].
  eapply sim_args with (s := s) (s' := s1) (d := d); try eassumption; try lia.
  intros vs vs' st1 j1 sls1 h1 g1 VS Lv A1 E1. eapply rok_ext; [exact E1|].
  rewrite <- Lv in C, Su.
  eapply inline_sim with (s := s1) (s' := s'); eassumption.
Qed.

(** * All forms *)
Lemma bsize_in e b : In e b -> (esize e <= bsize b)%nat.
Proof. induction b as [|a b IH]; cbn; [easy|]. intros [->|I]; [lia|]. specialize (IH I). lia. Qed.
Lemma csize_in c cls : In c cls -> (esize (fst c) + bsize (snd c) <= csize cls)%nat.
Proof.
  induction cls as [|[e b] cls IH]; cbn [csize]; [easy|]. intros [<-|I]; cbn [fst snd]; [lia|].
  specialize (IH I). lia.
Qed.
Lemma ksize_in {A} (c : A * list exp) cls : In c cls -> (bsize (snd c) <= ksize cls)%nat.
Proof.
  induction cls as [|[e b] cls IH]; cbn [ksize]; [easy|]. intros [<-|I]; cbn [fst snd]; [lia|].
  specialize (IH I). lia.
Qed.

Lemma SIM_size n : (forall m, (m < n)%nat -> forall e, SIM m e) ->
  forall sz e, (esize e < sz)%nat -> SIM n e.
Proof.
  intros IHn. induction sz as [|sz IH]; [lia|]. intros e Hs. rewrite esize_eq in Hs.
  assert (B : forall b, (bsize b < sz)%nat -> Forall (SIM n) b).
  { intros b Hb. apply Forall_forall. intros a I. apply IH. pose proof (bsize_in _ _ I). lia. }
  assert (K : forall A (cls : list (A * list exp)), (ksize cls < sz)%nat ->
              Forall (fun c => Forall (SIM n) (snd c)) cls).
  { intros A cls Hc. apply Forall_forall. intros c I. apply B. pose proof (ksize_in _ _ I). lia. }
  destruct e as [c|y|y e|y e|y p lb|o a|o a|a|f a|p lb|p lb a|f a|lb|e lb|cl|e cl|e lb|bs lb|bs lb].
  - apply sim_const.
  - apply sim_var.
  - apply sim_set, IH. lia.
  - apply sim_define, IH. lia.
  - apply sim_defun.
  - apply sim_prim, B. lia.
  - apply sim_bin, B. lia.
  - apply sim_list, B. lia.
  - apply sim_call; [assumption|apply IH; lia|apply B; lia].
  - apply sim_lam.
  - apply sim_inline; apply B; lia.
  - apply sim_funcall; [assumption|apply IH; lia|apply B; lia].
  - apply sim_progn, B. lia.
  - apply sim_prog1; [apply IH; lia|apply B; lia].
  - apply sim_econd. apply Forall_forall. intros c I. pose proof (csize_in _ _ I).
    split; [apply IH; lia|apply B; lia].
  - apply sim_ecase; [apply IH; lia|apply K; lia].
  - apply sim_while. intros m' Lm. destruct (Nat.eq_dec m' n) as [->|Nm].
    + split; [apply IH; lia|apply B; lia].
    + split; [apply IHn; lia|]. apply Forall_forall. intros a _. apply IHn. lia.
  - apply sim_elets; [apply K; lia|apply B; lia].
  - apply sim_eletrec; [apply K; lia|apply B; lia].
Qed.
Lemma SIM_all n : forall e, SIM n e.
Proof.
  induction n as [n IH] using lt_wf_ind. intros e. apply (SIM_size n IH (S (esize e))). lia.
Qed.

(** * Whole programs *)
Lemma same_of j v v' : vrel j v v' -> same v v'.
Proof. induction 1; constructor; assumption. Qed.
Lemma globs_of j g g' : grel j g g' -> same_globs g g'.
Proof.
  intros H. unfold same_globs. eapply Forall2_impl; [|exact H]. intros a b [E V]. split; [assumption|].
  eapply same_of; exact V.
Qed.
Lemma run_steps m M M1 n : steps m M M1 -> run P (m + n) M = run P n M1.
Proof. induction 1 as [|m s s1 s2 E S IH]; cbn; [reflexivity|]. now rewrite E. Qed.

Lemma form_sim d eff e s f gs :
  with_lambda None no_params 1 false [] (fun lr =>
    emit (ILbl (llabel lr)) ;; comp [] d [lr] true e ;; emiti Return) cst0 = Some s ->
  plain None eff true e = true -> small_asm (Asm (rev (code s)) (mx s) (bmx s)) = true ->
  (forall c, In c (captured (rev (code s))) -> heap c = true) ->
  alloc_asm heap [] (Asm (rev (code s)) (mx s) (bmx s)) = Some f ->
  forall n, agrees eff P f gs n (eval P n e [] (initial gs)).
Proof.
  intros C Hp Sm Cp AL n. unfold with_lambda, with_label in C. cbn beta in C.
  set (s0 := set_counters (S (nlab cst0)) (ncell cst0) cst0) in C.
  match type of C with (emit (ILbl (llabel ?x)) ;; _) _ = _ => set (lr := x) in C end.
  assert (LO : ls_ok None [lr]) by (apply (ls_ok_fun None None []); [apply ls_ok_nil|reflexivity..]).
  assert (O0 : ok s0). { split; [|split]; cbn; try lia. constructor. }
  sq C s1 C1. sq C s2 C2.
  assert (Ln : (llabel lr < nlab s0)%nat) by (cbn; lia).
  pose proof (pr_emit (ILbl (llabel lr)) _ _ Ln C1 O0) as R1. pose proof (proj2 R1) as K1. kf K1.
  pose proof (comp_ck _ _ _ _ _ _ _ _ C2 Hp LO ltac:(assumption)) as K2. kf K2.
  pose proof (pr_emiti _ _ _ C ltac:(assumption)) as R3. pose proof (proj2 R3) as K3. kf K3.
  cbn [small_asm] in Sm. ands Sm.
  unfold alloc_asm in AL.
  destruct (alloc_list (alloc_item heap []) (rev (code s))) as [[mc sl]|] eqn:EA; [|discriminate].
  injection AL as <-.
  destruct (alloc_list_map _ _ _ _ EA) as [-> [Lsl AA]].
  assert (B0 : cur s0 = 0 /\ bcur s0 = 0) by (split; reflexivity). destruct B0 as [B0 B0'].
  destruct (unpack (mx s) (bmx s) sl) as [U1 [U2 U3]]; try lia.
  set (F := {| fC := rev (code s); fbase := []; fsl := Z.to_nat sl; flim := mx s; fblim := bmx s;
               fargv := []; fsusp := [] |}).
  set (j0 := fun _ : nat => @None nat).
  assert (OK : fnok F).
  { constructor; cbn; try assumption.
    - intros i I. destruct (AA i I) as [mi [ni [Ei Lni]]]. exists mi, ni. split; [assumption|lia].
    - intros c I. unfold refs in I. apply in_flat_map in I. destruct I as [i [_ I]]. destruct i; destruct I. }
  assert (Q3 : pos F (code s) []) by (unfold pos; cbn; now rewrite app_nil_r).
  pose proof (pr_ex _ _ _ _ _ _ _ R3 Q3) as Q2. cbn [rev app] in Q2.
  destruct (ck_pos _ _ _ _ _ _ _ _ _ K2 Q2) as [r1 Q1].
  pose proof (pr_ex _ _ _ _ _ _ _ R1 Q1) as Q0. cbn [rev app] in Q0.
  assert (Er : rev (code s) = ILbl (llabel lr) :: r1) by exact Q0.
  set (g := data_globs gs : list (var * tval)).
  assert (GR : grel j0 (globs (initial gs)) g).
  { unfold g, initial, data_globs. cbn. induction gs as [|[x c] gs IH]; cbn; constructor; [|exact IH].
    split; [reflexivity|]. cbn. apply vrel_kval. }
  assert (Rm : mrel F j0 (initial gs) [] [] [] (repeat None (Z.to_nat sl)) [] g).
  { constructor; cbn; trivial; try constructor; try discriminate. apply repeat_length. }
  assert (A0 : at_ F s0 (ILbl (llabel lr) :: r1) [] [] [] (initial gs) j0 [] [] [O] (repeat None (Z.to_nat sl)) [] g).
  { constructor; try assumption; cbn; try reflexivity; try lia. }
  assert (A1 : at_ F s1 r1 [] [] [] (initial gs) j0 [] [] [O] (repeat None (Z.to_nat sl)) [] g).
  { eapply at_adv; [exact A0|exact K1|exact Q1|exact Rm|lia..]. }
  assert (St0 : start (CObj (map (al []) (rev (code s))) (pack (mx s) (bmx s) sl)) g
                = mk F (ILbl (llabel lr) :: r1) [] [] [O] (repeat None (Z.to_nat sl)) [] g).
  { unfold start, start_act. rewrite U1, U2, U3. unfold mk. cbn [F fbase fC flim fblim fargv fsusp].
    rewrite Er. reflexivity. }
  assert (X : rok n (eval P n e [] (initial gs))
    (mk F (ILbl (llabel lr) :: r1) [] [] [O] (repeat None (Z.to_nat sl)) [] g)
    (post eff F [II Return] [] [] [O] [] [] j0 (initial gs))).
  { eapply rok_step; [apply step_lbl; split; cbn [length flim fblim F]; lia|].
    eapply SIM_all with (s := s1) (s' := s2); try eassumption; cbn [flim fblim F]; try lia. reflexivity. }
  unfold agrees. fold g. unfold rok, fails in X. destruct (eval P n e [] (initial gs)) as [v st|er st|]; cbn iota in X |- *.
  - destruct X as [m [M1 [S1 [v' [j1 [sls1 [h1 [g1 [-> [V [Rm1 E1]]]]]]]]]]].
    exists (m + 1)%nat, v', h1, g1. split; [|split].
    + rewrite St0, (run_steps _ _ _ 1 S1). reflexivity.
    + intros H'. eapply same_of. apply V. exact H'.
    + eapply globs_of. exact (m_glob _ _ _ _ _ _ _ _ _ Rm1).
  - destruct X as [X|[m [M1 [h1 [g1 [j1 [S1 [D G]]]]]]]]; [now left|]. right.
    exists (m + 1)%nat, h1, g1. split.
    + rewrite St0, (run_steps _ _ _ 1 S1). cbn [run]. now rewrite D.
    + eapply globs_of. exact G.
  - destruct X as [m [M1 [L S1]]]. rewrite St0.
    clear - L S1. revert n L. induction S1 as [M|m M M1 M2 E S1 IH]; intros n L.
    + exists M. replace n with O by lia. reflexivity.
    + destruct n as [|n]; [now exists M|]. cbn [run]. rewrite E. apply IH. lia.
Qed.

End Sim.
