(** What the compiler emits: labels, stack accounting, bindings. *)
From Coq Require Import List Arith Bool ZArith Lia ZifyBool.
From Verif Require Import Compile_Model Compile_Spec.
Import ListNotations.
Open Scope Z_scope.

(** * Sizes of programs *)
Fixpoint esize (e : exp) : nat :=
  let sum := fix sum (l : list exp) : nat :=
    match l with [] => O | e :: l => (esize e + sum l)%nat end in
  S (match e with
     | EConst _ | EVar _ => O
     | ESet _ e | EDefine _ e => esize e
     | EDefun _ _ b | ELam _ b | EProgn b => sum b
     | EPrim _ b | EBin _ b | EList b => sum b
     | ECall f b | EFuncall f b | EProg1 f b | EWhile f b => (esize f + sum b)%nat
     | EInline _ b a => (sum b + sum a)%nat
     | ECond cls =>
         (fix go l := match l with [] => O | (e, b) :: l => (S (esize e + sum b) + go l)%nat end) cls
     | ECase k cls =>
         (esize k + (fix go (l : list (option (list const) * list exp)) :=
            match l with [] => O | (_, b) :: l => (S (sum b) + go l)%nat end) cls)%nat
     | ELets bs b | ELetrec bs b =>
         (sum b + (fix go (l : list (var * list exp)) :=
            match l with [] => O | (_, b) :: l => (S (sum b) + go l)%nat end) bs)%nat
     end).
Definition bsize := fix sum (l : list exp) : nat :=
  match l with [] => O | e :: l => (esize e + sum l)%nat end.
Definition csize := fix go (l : list (exp * list exp)) : nat :=
  match l with [] => O | (e, b) :: l => (S (esize e + bsize b) + go l)%nat end.
Definition ksize {A} := fix go (l : list (A * list exp)) : nat :=
  match l with [] => O | (_, b) :: l => (S (bsize b) + go l)%nat end.

Lemma esize_pos e : (0 < esize e)%nat.
Proof. destruct e; cbn; lia. Qed.
Lemma esize_eq e : esize e =
  S (match e with
     | EConst _ | EVar _ => O
     | ESet _ e | EDefine _ e => esize e
     | EDefun _ _ b | ELam _ b | EProgn b => bsize b
     | EPrim _ b | EBin _ b | EList b => bsize b
     | ECall f b | EFuncall f b | EProg1 f b | EWhile f b => (esize f + bsize b)%nat
     | EInline _ b a => (bsize b + bsize a)%nat
     | ECond cls => csize cls
     | ECase k cls => (esize k + ksize cls)%nat
     | ELets bs b | ELetrec bs b => (bsize b + ksize bs)%nat
     end).
Proof. destruct e; reflexivity. Qed.

(** * The compiler, case by case *)
Definition inl_of (d : nat) (p : params) (b : list exp) (name : option var)
  (ls : list lrec) (rf : bool) (n : nat) : M :=
  match d with
  | O => compile_error
  | S d => cinline (fun ls => cbody (comp [] d) ls rf b) ls p n name
  end.
Definition iargs_of (d : nat) (ls : list lrec) (args : list exp) : M :=
  match d with O => compile_error | S d => cargs (comp [] d) ls args end.

Lemma comp_eq d ls rf e s : comp [] d ls rf e s =
  (let c := comp [] d in
  match e with
  | EConst k => compile_constant k
  | EVar x => emit_varref x false ;; inc 1
  | ESet x e =>
      c ls false e ;; emiti Dup ;; inc 1 ;; emit_varset x ;; note_modified x ;; dec 1
  | EDefine x e =>
      compile_constant (KSym x) ;; c ls false e ;; emiti Define ;; dec 1
  | EDefun x p b =>
      compile_constant (KSym x) ;; clambda c ls p b (Some x) ;; emiti Define ;; dec 1
  | EPrim o args =>
      cfirst c ls (arity o) args ;; emiti (Op o) ;;
      match arity o with O => inc 1 | S n => dec (Z.of_nat n) end
  | EBin o args =>
      match args with
      | e1 :: es =>
          match es with
          | [] => compile_error
          | _ => c ls false e1 ;; cbin c ls o es
          end
      | [] => compile_error
      end
  | EList args =>
      cargs c ls args ;; compile_constant KNil ;;
      times (length args) (emiti (Op OCons) ;; dec 1)
  | ECall f args =>
      fun s =>
      let call : M :=
        c ls false f ;; cargs c ls args ;; emiti (Call (length args)) ;;
        note_call ;; dec (Z.of_nat (length args)) in
      match head_var f with
      | Some x =>
          match inlinable x rf ls s with
          | Some lr =>
              (note_referenced x true ;; cargs c ls args ;;
               ctail lr (length args) ;; inc 1) s
          | None => call s
          end
      | None => call s
      end
  | ELam p b => clambda c ls p b None
  | EInline p b args => iargs_of d ls args ;; inl_of d p b None ls rf (length args)
  | EFuncall f args =>
      match f with
      | ELam p b =>
          cargs c ls args ;; inl_of d p b None ls rf (length args) ;;
          match length args with O => inc 1 | S n => dec (Z.of_nat n) end
      | _ =>
          c ls false f ;; cargs c ls args ;; emiti (Call (length args)) ;;
          note_call ;; dec (Z.of_nat (length args))
      end
  | EProgn b => cbody c ls rf b
  | EProg1 e b =>
      c ls false e ;; cbody c ls false b ;; emiti Pop ;; dec 1
  | ECond cls =>
      with_label (fun el => ccond c ls rf el cls ;; inc 1 ;; emit (ILbl el))
  | ECase k cls =>
      with_label (fun el =>
        c ls false k ;; ccase c ls rf el false cls ;; inc 1 ;; emit (ILbl el) ;;
        emiti Swap ;; emiti Pop)
  | EWhile e b =>
      with_label (fun top => with_label (fun test =>
        emit (IJ Jmp test) ;; emit (ILbl top) ;; cbody c ls false b ;;
        emiti Pop ;; dec 1 ;; emit (ILbl test) ;; c ls false e ;; emit (IJ Jpt top)))
  | ELets bs b =>
      with_frame (emiti InitBind ;; binc ;; clets c ls bs ;;
                  cbody c ls rf b ;; emiti Unbind ;; bdec)
  | ELetrec bs b =>
      with_frame (fun s0 =>
        match (emiti InitBind ;; binc ;; cnils bs ;; csets c ls bs) s0 with
        | None => None
        | Some s =>
            match letrec_loop bs b s with
            | Some (x, p, lb, args) =>
                (iargs_of d ls args ;; inl_of d p lb (Some x) ls rf (length args)) (reload s0 s)
            | None => (cbody c ls rf b ;; emiti Unbind ;; bdec) s
            end
        end)
  end) s.
Proof.
  destruct d, e; try reflexivity; cbn -[inlinable find_lambda];
    (destruct (head_var e); [|reflexivity]);
    (destruct (inlinable _ _ _ _); [reflexivity|]);
    destruct (find_lambda _ _); reflexivity.
Qed.

(** * Accounting *)
Definition labs (c : list item) : list nat :=
  flat_map (fun i => match i with ILbl l => [l] | _ => [] end) c.
Lemma labs_app a b : labs (a ++ b) = labs a ++ labs b.
Proof. apply flat_map_app. Qed.

Definition ok (s : cst) : Prop :=
  cur s <= mx s /\ bcur s <= bmx s /\ Forall (fun l => (l < nlab s)%nat) (labs (code s)).

(** from [s] to [s']: labels from [lo] on, the declared sizes only grow *)
Record gr (lo : nat) (s s' : cst) : Prop := {
  gr_code : exists new, code s' = new ++ code s /\ Forall (fun l => (lo <= l)%nat) (labs new);
  gr_nlab : (nlab s <= nlab s')%nat;
  gr_mx : mx s <= mx s';
  gr_bmx : bmx s <= bmx s' }.

Lemma gr_refl lo s : gr lo s s.
Proof. constructor; try lia. exists []; split; [reflexivity|constructor]. Qed.
Lemma gr_trans lo s1 s2 s3 : gr lo s1 s2 -> gr lo s2 s3 -> gr lo s1 s3.
Proof.
  intros [[n1 [E1 F1]] ? ? ?] [[n2 [E2 F2]] ? ? ?]. constructor; try lia.
  exists (n2 ++ n1). split. { rewrite E2, E1. now rewrite app_assoc. }
  rewrite labs_app. apply Forall_app. now split.
Qed.
Lemma gr_weaken lo lo' s s' : (lo' <= lo)%nat -> gr lo s s' -> gr lo' s s'.
Proof.
  intros L [[n [E F]] ? ? ?]. constructor; try lia. exists n. split; [assumption|].
  eapply Forall_impl; [|exact F]. cbn. intros. lia.
Qed.

(** [m] changes current-stack by at least [de], current-b-stack by [be] and makes
    [la] bindings; it uses labels from [lo] on, and those below [hi] have been made *)
Record ck (lo hi : nat) (de be : Z) (la : nat) (s s' : cst) : Prop := {
  ck_ok : ok s';
  ck_gr : gr lo s s';
  ck_cur : cur s + de <= cur s';
  ck_bcur : bcur s' = bcur s + be;
  ck_lex : exists nl, lexb s' = nl ++ lexb s /\ length nl = la }.
Definition CK lo hi de be la (m : M) : Prop :=
  forall s s', m s = Some s' -> ok s -> (hi <= nlab s)%nat -> ck lo hi de be la s s'.

Lemma ck_trans lo hi d1 b1 l1 d2 b2 l2 s1 s2 s3 :
  ck lo hi d1 b1 l1 s1 s2 -> ck lo hi d2 b2 l2 s2 s3 ->
  ck lo hi (d1 + d2) (b1 + b2) (l1 + l2) s1 s3.
Proof.
  intros [O1 G1 C1 B1 [n1 [L1 N1]]] [O2 G2 C2 B2 [n2 [L2 N2]]].
  constructor; try lia; [assumption|eapply gr_trans; eassumption|].
  exists (n2 ++ n1). split. { rewrite L2, L1. apply app_assoc. }
  rewrite app_length. lia.
Qed.
Lemma seq_inv f g s s' : (f ;; g) s = Some s' -> exists s1, f s = Some s1 /\ g s1 = Some s'.
Proof. unfold seq. destruct (f s); [eauto|discriminate]. Qed.
Lemma CK_seq lo hi d1 b1 l1 d2 b2 l2 f g :
  CK lo hi d1 b1 l1 f -> CK lo hi d2 b2 l2 g ->
  CK lo hi (d1 + d2) (b1 + b2) (l1 + l2) (f ;; g).
Proof.
  intros Hf Hg s s' R O H. apply seq_inv in R. destruct R as [s1 [R1 R2]].
  pose proof (Hf _ _ R1 O H) as K1. eapply ck_trans; [exact K1|].
  apply Hg; [assumption|apply (ck_ok _ _ _ _ _ _ _ K1)|].
  pose proof (gr_nlab _ _ _ (ck_gr _ _ _ _ _ _ _ K1)). lia.
Qed.
Lemma CK_eq lo hi d b l d' b' l' m :
  CK lo hi d b l m -> d' <= d -> b' = b -> l' = l -> CK lo hi d' b' l' m.
Proof.
  intros H L -> -> s s' R O Hi. destruct (H _ _ R O Hi). constructor; try assumption. lia.
Qed.
Lemma CK_weaken lo hi lo' hi' d b l m :
  CK lo hi d b l m -> (lo' <= lo)%nat -> (hi <= hi')%nat -> CK lo' hi' d b l m.
Proof.
  intros H L L2 s s' R O Hi. destruct (H _ _ R O ltac:(lia)). constructor; try assumption.
  eapply gr_weaken; eassumption.
Qed.

Lemma CK_skip lo hi : CK lo hi 0 0 0 skip.
Proof.
  intros s s' R O H. injection R as <-. constructor; try lia; [assumption|apply gr_refl|].
  exists []; now split.
Qed.
Lemma CK_error lo hi d b l : CK lo hi d b l compile_error.
Proof. intros s s' R. discriminate. Qed.
Lemma CK_times lo hi d b n m :
  CK lo hi d b 0 m -> CK lo hi (Z.of_nat n * d) (Z.of_nat n * b) 0 (times n m).
Proof.
  intros H. induction n as [|n IH]; cbn [times]; [apply CK_skip|].
  eapply CK_eq; [apply CK_seq; [exact H|exact IH]|lia..].
Qed.

Lemma CK_emit lo hi i :
  match i with ILbl l => (lo <= l < hi)%nat | _ => True end -> CK lo hi 0 0 0 (emit i).
Proof.
  intros Hi s s' R [O1 [O2 O3]] H. injection R as <-.
  assert (F : forall Q : nat -> Prop, match i with ILbl l => Q l | _ => True end ->
              Forall Q (labs [i])) by (intros Q; destruct i; cbn; auto).
  constructor; try (cbn; lia).
  - split; [|split]; try assumption. change (labs (code (set_code (i :: code s) s)))
      with (labs ([i] ++ code s)).
    rewrite labs_app. apply Forall_app. split; [|assumption].
    apply F. destruct i; cbn; trivial. lia.
  - constructor; try (cbn; lia). exists [i]. split; [reflexivity|].
    apply F. destruct i; trivial. lia.
  - exists []; now split.
Qed.
Lemma CK_emiti lo hi i : CK lo hi 0 0 0 (emiti i).
Proof. apply CK_emit. exact I. Qed.
Lemma CK_inc lo hi n : CK lo hi n 0 0 (inc n).
Proof.
  intros s s' R [O1 [O2 O3]] H. injection R as <-. constructor; cbn; try lia.
  - split; [|split]; cbn; try assumption. lia.
  - constructor; cbn; try lia. exists []; split; [reflexivity|constructor].
  - exists []; now split.
Qed.
Lemma CK_dec lo hi n : 0 <= n -> CK lo hi (- n) 0 0 (dec n).
Proof.
  intros N s s' R [O1 [O2 O3]] H. injection R as <-. constructor; cbn; try lia.
  - split; [|split]; cbn; try assumption. lia.
  - constructor; cbn; try lia. exists []; split; [reflexivity|constructor].
  - exists []; now split.
Qed.
Lemma CK_binc lo hi : CK lo hi 0 1 0 binc.
Proof.
  intros s s' R [O1 [O2 O3]] H. injection R as <-. constructor; cbn; try lia.
  - split; [|split]; cbn; try assumption. lia.
  - constructor; cbn; try lia. exists []; split; [reflexivity|constructor].
  - exists []; now split.
Qed.
Lemma CK_bdec lo hi : CK lo hi 0 (-1) 0 bdec.
Proof.
  intros s s' R [O1 [O2 O3]] H. injection R as <-. constructor; cbn; try lia.
  - split; [|split]; cbn; try assumption. lia.
  - constructor; cbn; try lia. exists []; split; [reflexivity|constructor].
  - exists []; now split.
Qed.
Lemma CK_label lo hi d b la f :
  (lo <= hi)%nat -> (forall l, (hi <= l)%nat -> CK lo (S l) d b la (f l)) ->
  CK lo hi d b la (with_label f).
Proof.
  intros LH Hf s s' R [O1 [O2 O3]] H. unfold with_label in R.
  pose proof (Hf (nlab s) H _ _ R) as K. destruct K as [K1 K2 K3 K4 K5].
  - split; [|split]; cbn; try assumption. eapply Forall_impl; [|exact O3]. cbn; intros; lia.
  - cbn; lia.
  - cbn in *. constructor; try assumption. destruct K2 as [G1 G2 G3 G4]. cbn in *.
    constructor; try assumption. lia.
Qed.
Lemma CK_incs lo hi n i : CK lo hi (Z.of_nat n) 0 0 (times n (emiti i ;; inc 1)).
Proof.
  eapply CK_eq; [apply CK_times with (d := 1) (b := 0)|lia..].
  eapply CK_eq; [apply CK_seq; [apply CK_emiti|apply CK_inc]|lia..].
Qed.
Lemma CK_decs lo hi n i : CK lo hi (- Z.of_nat n) 0 0 (times n (emiti i ;; dec 1)).
Proof.
  eapply CK_eq; [apply CK_times with (d := -1) (b := 0)|lia..].
  eapply CK_eq; [apply CK_seq; [apply CK_emiti|apply CK_dec; lia]|lia..].
Qed.
(** steps that only change tags *)
Definition tagonly (m : M) : Prop :=
  forall s s', m s = Some s' -> s' = set_tags (tags s') s.
Lemma CK_tagonly lo hi m : tagonly m -> CK lo hi 0 0 0 m.
Proof.
  intros T s s' R [O1 [O2 O3]] H. pose proof (T _ _ R) as E. rewrite E.
  constructor; cbn; try lia.
  - split; [|split]; cbn; assumption.
  - constructor; cbn; try lia. exists []; split; [reflexivity|constructor].
  - exists []; now split.
Qed.
Lemma set_tags_id s : s = set_tags (tags s) s.
Proof. now destruct s. Qed.
Lemma to_cell t c : tagonly (tag_cell t c).
Proof.
  intros s s' R. unfold tag_cell in R. destruct (tagged _ _ _); injection R as <-;
    [apply set_tags_id|reflexivity].
Qed.
Lemma to_seq f g : tagonly f -> tagonly g -> tagonly (f ;; g).
Proof.
  intros Hf Hg s s' R. apply seq_inv in R. destruct R as [s1 [R1 R2]].
  apply Hf in R1. apply Hg in R2. rewrite R2, R1. now destruct s.
Qed.
Lemma to_skip : tagonly skip.
Proof. intros s s' R. injection R as <-. apply set_tags_id. Qed.
Lemma to_cells t l : tagonly (tag_cells t l).
Proof.
  induction l as [|[x c] l IH]; cbn; [apply to_skip|apply to_seq; [apply to_cell|exact IH]].
Qed.
Lemma to_binding x t : tagonly (tag_binding x t).
Proof.
  intros s s' R. unfold tag_binding in R. destruct (assoc _ _).
  - revert R. apply to_cell.
  - injection R as <-. apply set_tags_id.
Qed.
Lemma to_modified x : tagonly (note_modified x).
Proof.
  intros s s' R. unfold note_modified in R. destruct (assoc _ _).
  - revert R. apply to_seq; [apply to_cell|]. intros a b R.
    destruct (tagged _ _ _); [revert R; apply to_cell|injection R as <-; apply set_tags_id].
  - injection R as <-. apply set_tags_id.
Qed.
Lemma to_referenced x b : tagonly (note_referenced x b).
Proof.
  apply to_seq; [apply to_binding|]. destruct b; [apply to_skip|apply to_binding].
Qed.
Lemma to_call : tagonly note_call.
Proof. intros s s' R. revert R. apply to_cells. Qed.
Lemma to_closure : tagonly note_closure.
Proof. intros s s' R. revert R. apply to_cells. Qed.

Lemma CK_varref lo hi x b : CK lo hi 0 0 0 (emit_varref x b).
Proof.
  intros s s' R. unfold emit_varref in R. destruct (assoc _ _).
  - revert R. refine (CK_eq _ _ _ _ _ _ _ _ _ (CK_seq _ _ _ _ _ _ _ _ _ _ (CK_emit _ _ _ _)
      (CK_tagonly _ _ _ (to_referenced _ _))) _ _ _ _ _); try lia; exact I.
  - revert R. apply CK_emiti.
Qed.
Lemma CK_varset lo hi x : CK lo hi 0 0 0 (emit_varset x).
Proof.
  intros s s' R. unfold emit_varset in R. destruct (assoc _ _); revert R;
    [apply CK_emit; exact I|apply CK_emiti].
Qed.
Lemma CK_note_binding lo hi x : CK lo hi 0 0 1 (note_binding x).
Proof.
  intros s s' R [O1 [O2 O3]] H. injection R as <-. constructor; cbn; try lia.
  - split; [|split]; cbn; assumption.
  - constructor; cbn; try lia. exists []; split; [reflexivity|constructor].
  - exists [(x, ncell s)]; now split.
Qed.
Lemma CK_binding lo hi x : CK lo hi 0 0 0 (emit_binding x).
Proof. intros s s' R. revert R. apply CK_emit. exact I. Qed.
Lemma CK_constant lo hi k : CK lo hi 1 0 0 (compile_constant k).
Proof.
  eapply CK_eq; [apply CK_seq; [apply CK_emiti|apply CK_inc]|lia..].
Qed.
Lemma CK_frame lo hi d b la m : CK lo hi d b la m -> CK lo hi d b 0 (with_frame m).
Proof.
  intros Hm s s' R O H. unfold with_frame in R. destruct (m s) as [s1|] eqn:E; [|discriminate].
  injection R as <-. destruct (Hm _ _ E O H) as [K1 K2 K3 K4 [nl [K5 K6]]].
  constructor; cbn; try assumption.
  - destruct K2. constructor; assumption.
  - exists []. split; [|reflexivity]. cbn. rewrite K5, app_length.
    replace (length nl + length (lexb s) - length (lexb s))%nat with (length nl) by lia.
    rewrite skipn_app, skipn_all, Nat.sub_diag. reflexivity.
Qed.
Lemma CK_with_lambda lo hi name p delta b ls d be la f :
  (lo <= hi)%nat ->
  (forall lr, (hi <= llabel lr)%nat -> CK lo (S (llabel lr)) d be la (f lr)) ->
  CK lo hi d be la (with_lambda name p delta b ls f).
Proof.
  intros LH Hf. apply CK_label; [assumption|]. intros l Hl s s' R.
  revert R. match goal with |- f ?lr s = _ -> _ => apply (Hf lr) end. exact Hl.
Qed.

(** * Lambda records *)
Definition ls_ok (own : option var) (ls : list lrec) : Prop :=
  (forall x l, find_lambda x ls = Some l ->
     linlined l = false /\ (depth_of ls = Some (ldepth l) -> own = Some x))
  /\ (forall l, In l ls -> exists d, depth_of ls = Some d /\ (ldepth l <= d)%nat).

Lemma ls_ok_nil own : ls_ok own [].
Proof. split; [discriminate|intros l []]. Qed.
Lemma find_lambda_in x ls l : find_lambda x ls = Some l -> In l ls.
Proof.
  induction ls as [|r ls IH]; cbn; [discriminate|].
  destruct (lname r) as [y|]; [destruct (Nat.eqb x y)|]; intros H; auto;
    injection H as <-; now left.
Qed.
Lemma ls_ok_inline own ls lr :
  ls_ok own ls -> lname lr = None ->
  ldepth lr = match depth_of ls with Some d => (d + 0)%nat | None => O end ->
  ls_ok own (lr :: ls).
Proof.
  intros [A B] N D. split.
  - intros x l. cbn [find_lambda]. rewrite N. intros F. destruct (A _ _ F) as [A1 A2].
    split; [assumption|]. intros E. apply A2. cbn [depth_of] in E. injection E as E.
    destruct (B _ (find_lambda_in _ _ _ F)) as [d [Bd _]]. rewrite Bd in *.
    f_equal. lia.
  - intros l [<-|H]; [eexists; cbn; split; [reflexivity|lia]|].
    destruct (B _ H) as [d [Bd L]]. exists (ldepth lr). split; [reflexivity|].
    rewrite Bd in D. lia.
Qed.
Lemma ls_ok_fun own name ls lr :
  ls_ok own ls -> lname lr = name -> linlined lr = false ->
  ldepth lr = match depth_of ls with Some d => (d + 1)%nat | None => O end ->
  ls_ok name (lr :: ls).
Proof.
  intros [A B] N I D. split.
  - intros x l. cbn [find_lambda]. rewrite N.
    assert (X : forall l, find_lambda x ls = Some l ->
      linlined l = false /\ (depth_of (lr :: ls) = Some (ldepth l) -> name = Some x)).
    { intros l0 F. destruct (A _ _ F) as [A1 A2]. split; [assumption|].
      intros E. exfalso. cbn in E. injection E as E.
      destruct (B _ (find_lambda_in _ _ _ F)) as [d [Bd L]]. rewrite Bd in D. lia. }
    destruct name as [y|]; [|apply X].
    destruct (Nat.eqb x y) eqn:Exy; [|apply X].
    apply Nat.eqb_eq in Exy. subst y. intros E. injection E as <-. now split.
  - intros l [<-|H]; [eexists; cbn; split; [reflexivity|lia]|].
    destruct (B _ H) as [d [Bd L]]. exists (ldepth lr). split; [reflexivity|].
    rewrite Bd in D. lia.
Qed.
Lemma inlinable_none own ls rf f x s :
  ls_ok own ls -> head_var f = Some x -> rf && calls own f = false ->
  inlinable x rf ls s = None.
Proof.
  intros [A _] Hf C. destruct f; try discriminate. injection Hf as <-.
  unfold inlinable. destruct (find_lambda x0 ls) as [l|] eqn:F; [|reflexivity].
  destruct (A _ _ F) as [A1 A2]. rewrite A1. cbn [orb].
  destruct (depth_of ls) as [dd|]; [|now rewrite andb_false_r].
  destruct (Nat.eqb (ldepth l) dd) eqn:E; [|now rewrite andb_false_r].
  apply Nat.eqb_eq in E. subst dd. rewrite (A2 eq_refl) in C. cbn in C.
  rewrite Nat.eqb_refl, andb_true_r in C. now rewrite C.
Qed.

Definition lam_start (s : cst) : cst :=
  {| code := []; nlab := nlab s; ncell := ncell s; cur := 0; mx := 0;
     bcur := 0; bmx := 0; lexb := lexb s; tags := tags s |}.
Definition lam_comp d ls p b name : M := fun s =>
  with_lambda name p 1 false ls (fun lr =>
    with_frame (lambda_spec p ;; emit (ILbl (llabel lr)) ;;
                cbody (comp [] d) (lr :: ls) true b ;; emiti Return)) (lam_start s).
Lemma clambda_eq d ls p b name s :
  clambda (comp [] d) ls p b name s =
  match lam_comp d ls p b name s with
  | None => None
  | Some s1 =>
      (emit (IBytecode (Asm (rev (code s1)) (mx s1) (bmx s1)) (lexb s)) ;;
       emiti Enclose ;; inc 1 ;; note_closure)
      (set_tags (tags s1) (set_counters (nlab s1) (ncell s1) s))
  end.
Proof. reflexivity. Qed.
Lemma lam_start_ok s : ok (lam_start s).
Proof. split; [|split]; cbn; try lia. constructor. Qed.

(** ** Parameters *)
Lemma CK_bind_vars lo hi xs :
  CK lo hi (- Z.of_nat (length xs)) 0 (length xs) (bind_vars xs).
Proof.
  induction xs as [|x xs IH]; cbn [bind_vars]; [apply CK_skip|].
  eapply CK_eq; [apply CK_seq; [apply CK_note_binding|apply CK_seq;
    [apply CK_binding|apply CK_seq; [apply CK_dec|exact IH]]]|cbn [length]; lia..].
  Unshelve. lia.
Qed.
Lemma CK_lambda_spec lo hi p :
  CK lo hi 0 0 (length (lambda_vars p)) (lambda_spec p).
Proof.
  unfold lambda_spec.
  assert (T : forall n i, CK lo hi (Z.of_nat n) 0 0 (times n (emiti i ;; inc 1))).
  { intros n i. apply CK_incs. }
  assert (R : CK lo hi (match rest p with Some _ => 1 | None => 0 end) 0 0
                (match rest p with Some _ => emiti RestArg ;; inc 1 | None => skip end)).
  { destruct (rest p); [|apply CK_skip].
    eapply CK_eq; [apply CK_seq; [apply CK_emiti|apply CK_inc]|lia..]. }
  eapply CK_eq; [apply CK_seq; [apply T|apply CK_seq; [apply T|apply CK_seq;
    [exact R|apply CK_bind_vars]]]|..]; unfold lambda_vars; rewrite ?rev_length, ?app_length;
    destruct (rest p); cbn [length]; lia.
Qed.

(** the outcome of the scan when no argument is surplus *)
Definition surplus (p : params) (n : nat) : bool :=
  match rest p with Some _ => false | None => negb (n <=? length (req p) + length (opt p))%nat end.

Lemma scan_opt_eq os : forall n bs k,
  scan_opt os n bs k =
  ((n - length os)%nat, rev (map (fun x => (x, None)) os) ++ bs, (k + (length os - n))%nat).
Proof.
  induction os as [|x os IH]; intros n bs k; cbn [scan_opt length map rev app].
  - f_equal; [f_equal|]; lia.
  - destruct n as [|n]; rewrite IH; rewrite <- app_assoc; cbn [app]; f_equal; try lia;
      f_equal; lia.
Qed.
Lemma scan_req_eq xs : forall n bs,
  scan_req xs n bs =
  if (length xs <=? n)%nat
  then Some ((n - length xs)%nat, rev (map (fun x => (x, None)) xs) ++ bs) else None.
Proof.
  induction xs as [|x xs IH]; intros n bs; cbn [scan_req length map rev app].
  - cbn. now rewrite Nat.sub_0_r.
  - destruct n as [|n]; [reflexivity|]. rewrite IH. cbn [Nat.leb Nat.sub].
    rewrite <- app_assoc. reflexivity.
Qed.
Definition plain_vars (xs : list var) : list (var * option nat) := map (fun x => (x, None)) xs.
Lemma scan_eq p n :
  scan p n =
  if (length (req p) <=? n)%nat then
    let k := (n - length (req p) - length (opt p))%nat in
    Some (match rest p with Some _ => O | None => k end,
          match rest p with Some x => [(x, Some k)] | None => [] end
          ++ rev (plain_vars (req p ++ opt p)),
          (length (opt p) - (n - length (req p)))%nat)
  else None.
Proof.
  unfold scan. rewrite scan_req_eq. destruct (_ <=? _)%nat; [|reflexivity].
  rewrite scan_opt_eq. unfold plain_vars. rewrite app_nil_r, map_app, rev_app_distr.
  cbn zeta. destruct (rest p); reflexivity.
Qed.

Lemma CK_pop_plain lo hi xs :
  CK lo hi (- Z.of_nat (length xs)) 0 (length xs)
     (pop_inline (plain_vars xs) 0 (fun x => note_binding x ;; emit_binding x)).
Proof.
  induction xs as [|x xs IH]; cbn [plain_vars map pop_inline]; [apply CK_skip|].
  eapply CK_eq; [apply CK_seq; [apply CK_seq; [apply CK_note_binding|apply CK_binding]|
    apply CK_seq; [apply CK_dec|exact IH]]|cbn [length]; lia..].
  Unshelve. lia.
Qed.
Lemma plain_vars_rev xs : rev (plain_vars xs) = plain_vars (rev xs).
Proof. unfold plain_vars. now rewrite map_rev. Qed.
Lemma CK_conses lo hi n : CK lo hi (- Z.of_nat n) 0 0 (times n (emiti (Op OCons) ;; dec 1)).
Proof.
  apply CK_decs.
Qed.

Lemma CK_inline lo hi cb ls p n name own :
  (lo <= hi)%nat -> surplus p n = false -> ls_ok own ls -> name = None ->
  (forall lr, (hi <= llabel lr)%nat -> ls_ok own (lr :: ls) ->
     CK lo (S (llabel lr)) 1 0 0 (cb (lr :: ls))) ->
  CK lo hi (1 - Z.of_nat n) 0 0 (cinline cb ls p n name).
Proof.
  intros LH Su LO -> Hcb. unfold cinline. rewrite scan_eq.
  destruct (length (req p) <=? n)%nat eqn:En; [|apply CK_error].
  apply Nat.leb_le in En. cbn zeta.
  set (k := (n - length (req p) - length (opt p))%nat).
  set (nn := (length (opt p) - (n - length (req p)))%nat).
  assert (TN : CK lo hi (Z.of_nat nn) 0 0 (times nn (emiti (Push KNil) ;; inc 1))).
  { apply CK_incs. }
  assert (B : CK lo hi 1 0 0 (with_lambda None p 0 true ls (fun lr =>
               emit (ILbl (llabel lr)) ;; cb (lr :: ls)))).
  { apply CK_label; [assumption|]. intros l Hl s s' R. revert s s' R.
    intros s s' R. revert R.
    match goal with |- (emit (ILbl (llabel ?lr)) ;; _) s = _ -> _ =>
      change ((emit (ILbl l) ;; cb (lr :: ls)) s = Some s' -> ok s -> (S l <= nlab s)%nat ->
              ck lo (S l) 1 0 0 s s');
      assert (X : CK lo (S l) 1 0 0 (emit (ILbl l) ;; cb (lr :: ls))) end.
    { eapply CK_eq; [apply CK_seq; [apply CK_emit; lia|]|..].
      - match goal with |- CK _ _ _ _ _ (cb (?lr :: _)) => apply (Hcb lr) end.
        + exact Hl. + apply ls_ok_inline; [assumption|reflexivity|reflexivity].
      - lia. - lia. - lia. }
    apply X. }
  assert (lft0 : match rest p with Some _ => O | None => k end = O).
  { unfold surplus in Su. destruct (rest p); [reflexivity|]. subst k.
    apply negb_false_iff, Nat.leb_le in Su. lia. }
  rewrite lft0.
  set (vars := match rest p with Some x => [(x, Some k)] | None => [] end ++ _).
  assert (V : CK lo hi (Z.of_nat nn + (1 - Z.of_nat n - Z.of_nat nn)) 0 0
    (times nn (emiti (Push KNil) ;; inc 1) ;;
     with_frame
       match vars with
       | [] => times 0 (emiti Pop ;; dec 1) ;;
               with_lambda None p 0 true ls (fun lr => emit (ILbl (llabel lr)) ;; cb (lr :: ls))
       | _ => emiti InitBind ;; binc ;;
              pop_inline vars 0 (fun x => note_binding x ;; emit_binding x) ;;
              with_lambda None p 0 true ls (fun lr => emit (ILbl (llabel lr)) ;; cb (lr :: ls)) ;;
              emiti Unbind ;; bdec
       end)).
  { eapply CK_eq; [apply CK_seq; [exact TN|eapply CK_frame]|..]; cycle 1.
    - reflexivity. - reflexivity. - reflexivity.
    - assert (PV : CK lo hi (- Z.of_nat n - Z.of_nat nn) 0 (length (lambda_vars p))
        (pop_inline vars 0 (fun x => note_binding x ;; emit_binding x))).
      { subst vars. rewrite plain_vars_rev. unfold lambda_vars. subst nn k.
        destruct (rest p) as [x|]; cbn [app pop_inline].
        - eapply CK_eq; [apply CK_seq; [apply CK_constant|apply CK_seq; [apply CK_conses|
            apply CK_seq; [apply CK_seq; [apply CK_note_binding|apply CK_binding]|apply CK_seq;
            [apply CK_dec; lia|apply CK_pop_plain]]]]|..];
            rewrite ?rev_length, ?app_length; cbn [length]; lia.
        - eapply CK_eq; [apply CK_pop_plain|..]; rewrite ?rev_length, ?app_length; cbn [length];
            unfold surplus in Su; lia. }
      assert (E : vars = [] -> length (lambda_vars p) = O /\ n = O).
      { intros E. subst vars. apply app_eq_nil in E. destruct E as [E1 E2].
        destruct (rest p) eqn:Er; [discriminate|].
        unfold lambda_vars. rewrite Er, !app_length.
        apply (f_equal (@length _)) in E2. rewrite plain_vars_rev in E2. unfold plain_vars in E2.
        rewrite map_length, rev_length, app_length in E2. cbn [length] in *.
        unfold surplus in Su. rewrite Er in Su. lia. }
      destruct vars as [|v vars'] eqn:Ev.
      + destruct (E eq_refl) as [E1 ->].
        assert (Z0 : CK lo hi (1 - Z.of_nat 0 - Z.of_nat nn) 0 (length (lambda_vars p))
          (times 0 (emiti Pop ;; dec 1) ;;
           with_lambda None p 0 true ls (fun lr => emit (ILbl (llabel lr)) ;; cb (lr :: ls)))).
        { eapply CK_eq; [apply CK_seq; [apply CK_skip|exact B]|lia..]. }
        exact Z0.
      + eapply CK_eq; [apply CK_seq; [apply CK_emiti|apply CK_seq; [apply CK_binc|apply CK_seq;
          [exact PV|apply CK_seq; [exact B|apply CK_seq; [apply CK_emiti|apply CK_bdec]]]]]|lia..]. }
  eapply CK_eq; [exact V|lia..].
Qed.

(** * Every form *)
Section Forms.
Variable n : nat.
Hypothesis IH : forall e, (esize e < n)%nat -> forall d ls own eff rf lo hi,
  plain own eff rf e = true -> ls_ok own ls -> (lo <= hi)%nat ->
  CK lo hi 1 0 0 (comp [] d ls rf e).

Lemma CK_body d ls own rf lo hi b :
  (bsize b < n)%nat -> pbody plain own rf b = true -> ls_ok own ls -> (lo <= hi)%nat ->
  CK lo hi 1 0 0 (cbody (comp [] d) ls rf b).
Proof.
  intros Hs Hp LO LH. induction b as [|e b IHb]; [apply CK_constant|].
  cbn [bsize] in Hs. pose proof (esize_pos e).
  destruct b as [|e2 b].
  - cbn [cbody]. cbn in Hp. eapply IH; try eassumption. cbn in Hs. lia.
  - change (cbody (comp [] d) ls rf (e :: e2 :: b)) with
      (comp [] d ls false e ;; emiti Pop ;; dec 1 ;; cbody (comp [] d) ls rf (e2 :: b)).
    change (pbody plain own rf (e :: e2 :: b)) with
      (plain own true false e && pbody plain own rf (e2 :: b)) in Hp.
    apply andb_prop in Hp. destruct Hp as [P1 P2].
    eapply CK_eq; [apply CK_seq; [eapply IH; try eassumption; lia|apply CK_seq;
      [apply CK_emiti|apply CK_seq; [apply CK_dec; lia|apply IHb; [lia|assumption]]]]|lia..].
Qed.
Lemma CK_args d ls own lo hi b :
  (bsize b < n)%nat -> pargs plain own b = true -> ls_ok own ls -> (lo <= hi)%nat ->
  CK lo hi (Z.of_nat (length b)) 0 0 (cargs (comp [] d) ls b).
Proof.
  intros Hs Hp LO LH. induction b as [|e b IHb]; [apply CK_skip|].
  cbn [bsize] in Hs. cbn in Hp. apply andb_prop in Hp. destruct Hp as [P1 P2].
  cbn [cargs].
  eapply CK_eq; [apply CK_seq; [eapply IH; try eassumption; lia|apply IHb; [lia|assumption]]
    |cbn [length]; lia..].
Qed.
Lemma CK_first d ls own lo hi b : forall k,
  (length b <= k)%nat -> (bsize b < n)%nat -> pargs plain own b = true -> ls_ok own ls ->
  (lo <= hi)%nat ->
  CK lo hi (Z.of_nat k) 0 0 (cfirst (comp [] d) ls k b).
Proof.
  induction b as [|e b IHb]; intros k Hk Hs Hp LO LH.
  - cbn [cfirst]. eapply CK_eq; [apply CK_times; apply CK_constant|lia..].
  - cbn [bsize] in Hs. cbn in Hp. apply andb_prop in Hp. destruct Hp as [P1 P2].
    cbn [length] in Hk. destruct k as [|k]; [lia|]. cbn [cfirst].
    eapply CK_eq; [apply CK_seq; [eapply IH; try eassumption; lia|
      apply IHb; [lia|lia|assumption..]]|lia..].
Qed.
Lemma CK_bin d ls own lo hi o b :
  (bsize b < n)%nat -> pargs plain own b = true -> ls_ok own ls -> (lo <= hi)%nat ->
  CK lo hi 0 0 0 (cbin (comp [] d) ls o b).
Proof.
  intros Hs Hp LO LH. induction b as [|e b IHb]; [apply CK_skip|].
  cbn [bsize] in Hs. cbn in Hp. apply andb_prop in Hp. destruct Hp as [P1 P2].
  cbn [cbin].
  eapply CK_eq; [apply CK_seq; [eapply IH; try eassumption; lia|apply CK_seq; [apply CK_emiti|
    apply CK_seq; [apply CK_dec; lia|apply IHb; [lia|assumption]]]]|lia..].
Qed.
Lemma lam_comp_ck d ls own p b name s s1 :
  (bsize b < n)%nat -> pbody plain name true b = true -> ls_ok own ls ->
  lam_comp d ls p b name s = Some s1 ->
  ck (nlab s) (nlab s) 1 0 0 (lam_start s) s1.
Proof.
  intros Hs Hp LO R. unfold lam_comp in R. revert R.
  assert (X : CK (nlab s) (nlab s) 1 0 0 (with_lambda name p 1 false ls (fun lr =>
    with_frame (lambda_spec p ;; emit (ILbl (llabel lr)) ;;
                cbody (comp [] d) (lr :: ls) true b ;; emiti Return)))).
  { apply CK_label; [lia|]. intros l Hl s0 s' R.
    match type of R with with_frame (?a ;; emit (ILbl (llabel ?lr)) ;; ?c) _ = _ =>
      assert (Y : CK (nlab s) (S l) 1 0 0 (with_frame (a ;; emit (ILbl (llabel lr)) ;; c))) end.
    { eapply CK_frame. eapply CK_eq; [apply CK_seq; [apply CK_lambda_spec|apply CK_seq;
        [apply CK_emit; cbn; lia|apply CK_seq; [eapply CK_body; try eassumption|apply CK_emiti]]]|..].
      - eapply ls_ok_fun; [exact LO|reflexivity|reflexivity|reflexivity].
      - lia. - lia. - lia. - reflexivity. }
    revert R. apply Y. }
  intros R. apply X; [exact R|apply lam_start_ok|cbn; lia].
Qed.
Lemma CK_lambda d ls own p b name lo hi :
  (bsize b < n)%nat -> pbody plain name true b = true -> ls_ok own ls -> (lo <= hi)%nat ->
  CK lo hi 1 0 0 (clambda (comp [] d) ls p b name).
Proof.
  intros Hs Hp LO LH s s' R O H. rewrite clambda_eq in R.
  destruct (lam_comp d ls p b name s) as [s1|] eqn:E; [|discriminate].
  pose proof (lam_comp_ck _ _ _ _ _ _ _ _ Hs Hp LO E) as K.
  pose proof (gr_nlab _ _ _ (ck_gr _ _ _ _ _ _ _ K)) as NL. cbn in NL.
  set (t := set_tags (tags s1) (set_counters (nlab s1) (ncell s1) s)) in *.
  assert (Ot : ok t).
  { destruct O as [O1 [O2 O3]]. split; [|split]; cbn; try assumption.
    eapply Forall_impl; [|exact O3]. cbn. intros. lia. }
  assert (X : CK lo hi 1 0 0
    (emit (IBytecode (Asm (rev (code s1)) (mx s1) (bmx s1)) (lexb s)) ;;
       emiti Enclose ;; inc 1 ;; note_closure)).
  { eapply CK_eq; [apply CK_seq; [apply CK_emit; exact I|apply CK_seq; [apply CK_emiti|
      apply CK_seq; [apply CK_inc|apply CK_tagonly; apply to_closure]]]|lia..]. }
  destruct (X _ _ R Ot) as [K1 K2 K3 K4 K5]. { cbn. lia. }
  cbn in *. constructor; try assumption. destruct K2. cbn in *. constructor; try assumption. lia.
Qed.
Lemma CK_named d ls own x lo hi b :
  (bsize b < n)%nat -> pnamed plain own x b = true -> ls_ok own ls -> (lo <= hi)%nat ->
  CK lo hi 1 0 0 (cbody_named (comp [] d) ls x b).
Proof.
  intros Hs Hp LO LH. induction b as [|e b IHb]; [apply CK_constant|].
  cbn [bsize] in Hs. pose proof (esize_pos e).
  destruct b as [|e2 b].
  - destruct e; try (cbn [cbody_named]; cbn [pnamed] in Hp; eapply IH; try eassumption;
      cbn in Hs |- *; lia).
    cbn [cbody_named]. cbn [pnamed] in Hp. apply andb_prop in Hp. destruct Hp as [_ Hp].
    eapply CK_lambda; try eassumption. rewrite esize_eq in Hs. lia.
  - replace (cbody_named (comp [] d) ls x (e :: e2 :: b)) with
      (comp [] d ls false e ;; emiti Pop ;; dec 1 ;; cbody_named (comp [] d) ls x (e2 :: b))
      by (destruct e; reflexivity).
    replace (pnamed plain own x (e :: e2 :: b)) with
      (plain own true false e && pnamed plain own x (e2 :: b)) in Hp by (destruct e; reflexivity).
    apply andb_prop in Hp. destruct Hp as [P1 P2].
    eapply CK_eq; [apply CK_seq; [eapply IH; try eassumption; lia|apply CK_seq;
      [apply CK_emiti|apply CK_seq; [apply CK_dec; lia|apply IHb; [lia|assumption]]]]|lia..].
Qed.
Lemma CK_lets d ls own lo hi bs :
  (ksize bs < n)%nat -> plets plain own bs = true -> ls_ok own ls -> (lo <= hi)%nat ->
  CK lo hi 0 0 (length bs) (clets (comp [] d) ls bs).
Proof.
  intros Hs Hp LO LH. induction bs as [|[x b] bs IHb]; [apply CK_skip|].
  cbn [ksize] in Hs. cbn in Hp. apply andb_prop in Hp. destruct Hp as [P1 P2].
  cbn [clets].
  eapply CK_eq; [apply CK_seq; [eapply CK_body; try eassumption; lia|apply CK_seq;
    [apply CK_note_binding|apply CK_seq; [apply CK_binding|apply CK_seq; [apply CK_dec; lia|
    apply IHb; [lia|assumption]]]]]|cbn [length]; lia..].
Qed.
Lemma CK_nils lo hi bs : CK lo hi 0 0 (length bs) (cnils bs).
Proof.
  induction bs as [|[x b] bs IHb]; [apply CK_skip|]. cbn [cnils].
  eapply CK_eq; [apply CK_seq; [apply CK_constant|apply CK_seq;
    [apply CK_note_binding|apply CK_seq; [apply CK_binding|apply CK_seq; [apply CK_dec; lia|
    exact IHb]]]]|cbn [length]; lia..].
Qed.
Lemma CK_sets d ls own lo hi bs :
  (ksize bs < n)%nat -> precs plain own bs = true -> ls_ok own ls -> (lo <= hi)%nat ->
  CK lo hi 0 0 0 (csets (comp [] d) ls bs).
Proof.
  intros Hs Hp LO LH. induction bs as [|[x b] bs IHb]; [apply CK_skip|].
  cbn [ksize] in Hs. cbn in Hp. apply andb_prop in Hp. destruct Hp as [P1 P2].
  cbn [csets].
  eapply CK_eq; [apply CK_seq; [eapply CK_named; try eassumption; lia|apply CK_seq;
    [apply CK_varset|apply CK_seq; [apply CK_dec; lia|
    apply IHb; [lia|assumption]]]]|lia..].
Qed.
Lemma CK_cond d ls own rf el lo hi cls :
  (csize cls < n)%nat -> pcond plain own rf cls = true -> ls_ok own ls -> (lo <= hi)%nat ->
  CK lo hi 0 0 0 (ccond (comp [] d) ls rf el cls).
Proof.
  intros Hs Hp LO LH. revert hi LH. induction cls as [|[e b] cls IHb]; intros hi LH;
    [apply CK_emiti|].
  cbn [csize] in Hs. cbn [pcond] in Hp. apply andb_prop in Hp. destruct Hp as [Hp P3].
  apply andb_prop in Hp. destruct Hp as [P1 P2].
  cbn [ccond]. apply CK_label; [assumption|]. intros l Hl.
  assert (B0 : CK lo (S l) 1 0 0 (cbody (comp [] d) ls rf b)).
  { eapply CK_body; try eassumption; lia. }
  assert (B : CK lo (S l) 0 0 0 (cbody (comp [] d) ls rf b ;; dec 1)).
  { eapply CK_eq; [apply CK_seq; [exact B0|apply CK_dec; lia]|lia..]. }
  assert (G : CK lo (S l) 0 0 0 (ccond (comp [] d) ls rf el cls)).
  { apply IHb; [lia|assumption|lia]. }
  destruct (cconst e) as [[]|] eqn:Ec.
  - destruct b; [|exact B].
    assert (X : CK lo (S l) 0 0 0 (comp [] d ls rf e ;; dec 1)).
    { destruct e; try discriminate.
      eapply CK_eq; [apply CK_seq; [eapply IH with (own := own) (eff := false);
        [cbn in Hs |- *; lia|reflexivity|assumption|lia]|
        apply CK_dec; lia]|lia..]. }
    destruct e; try discriminate. destruct k; try exact X. apply CK_emiti.
  - exact G.
  - eapply CK_eq; [apply CK_seq; [eapply IH; try eassumption; lia|apply CK_seq; [apply CK_dec; lia|]]|..].
    + destruct b as [|e1 b], cls as [|c cls].
      * eapply CK_eq; [apply CK_skip|..]; reflexivity.
      * eapply CK_eq; [apply CK_seq; [apply CK_emit; exact I|exact G]|..]; reflexivity.
      * eapply CK_eq; [apply CK_seq; [apply CK_emit; exact I|exact B]|..]; reflexivity.
      * eapply CK_eq; [apply CK_seq; [apply CK_emit; exact I|apply CK_seq; [exact B0|apply CK_seq;
          [apply CK_dec; lia|apply CK_seq; [apply CK_emit; exact I|apply CK_seq;
          [apply CK_emit; lia|exact G]]]]]|lia..].
    + lia. + lia. + lia.
Qed.
Lemma CK_case d ls own rf el lo hi cls : forall df,
  (ksize cls < n)%nat -> pcase plain own rf cls = true -> ls_ok own ls -> (lo <= hi)%nat ->
  CK lo hi 0 0 0 (ccase (comp [] d) ls rf el df cls).
Proof.
  intros df Hs Hp LO LH. revert hi df LH. induction cls as [|[ks b] cls IHb]; intros hi df LH.
  { cbn [ccase]. destruct df; [apply CK_skip|apply CK_emiti]. }
  cbn [ksize] in Hs. cbn [pcase] in Hp. apply andb_prop in Hp. destruct Hp as [Hp P3].
  apply andb_prop in Hp. destruct Hp as [P1 P2].
  cbn [ccase]. apply CK_label; [assumption|]. intros l Hl.
  eapply CK_eq; [apply CK_seq; [|apply CK_seq; [eapply CK_body; try eassumption; lia|apply CK_seq;
    [apply CK_dec; lia|apply CK_seq; [apply CK_emit; exact I|apply CK_seq; [apply CK_emit; lia|
     apply IHb; [lia|assumption|lia]]]]]]|..].
  - instantiate (1 := 0%nat). instantiate (1 := 0). instantiate (1 := 0).
    destruct ks as [[|k [|k2 ks]]|]; try apply CK_error; try apply CK_skip;
    (eapply CK_eq; [apply CK_seq; [apply CK_emiti|apply CK_seq; [apply CK_inc|apply CK_seq;
      [apply CK_constant|apply CK_seq; [apply CK_emiti|apply CK_seq; [apply CK_dec; lia|apply CK_seq;
      [apply CK_emit; exact I|apply CK_dec; lia]]]]]]|lia..]).
  - lia. - lia. - lia.
Qed.
End Forms.

Lemma loop_none bs b s : loop_shape bs b = false -> letrec_loop bs b s = None.
Proof.
  unfold loop_shape, letrec_loop. intros H.
  repeat (first [reflexivity | match goal with
  | |- (if ?c && ?d then _ else _) = None => rewrite H; reflexivity
  | |- match ?x with _ => _ end = None => destruct x
  end]).
Qed.

Theorem CK_comp : forall n e, (esize e < n)%nat -> forall d ls own eff rf lo hi,
  plain own eff rf e = true -> ls_ok own ls -> (lo <= hi)%nat ->
  CK lo hi 1 0 0 (comp [] d ls rf e).
Proof.
  induction n as [|n IH]; intros e Hs d ls own eff rf lo hi Hp LO LH; [lia|].
  intros s s' R. rewrite comp_eq in R. revert s s' R. rewrite esize_eq in Hs.
  match goal with |- forall s s', ?m s = Some s' -> _ => change (CK lo hi 1 0 0 m) end.
  destruct e; cbn [plain] in Hp; cbn zeta beta iota.
  - apply CK_constant.
  - eapply CK_eq; [apply CK_seq; [apply CK_varref|apply CK_inc]|lia..].
  - eapply CK_eq; [apply CK_seq; [eapply IH; try eassumption; lia|apply CK_seq; [apply CK_emiti|
      apply CK_seq; [apply CK_inc|apply CK_seq; [apply CK_varset|apply CK_seq;
      [apply CK_tagonly; apply to_modified|apply CK_dec; lia]]]]]|lia..].
  - apply andb_prop in Hp. destruct Hp as [_ Hp].
    eapply CK_eq; [apply CK_seq; [apply CK_constant|apply CK_seq; [eapply IH; try eassumption; lia|
      apply CK_seq; [apply CK_emiti|apply CK_dec; lia]]]|lia..].
  - apply andb_prop in Hp. destruct Hp as [_ Hp].
    eapply CK_eq; [apply CK_seq; [apply CK_constant|apply CK_seq; [
      eapply CK_lambda; try eassumption; lia|
      apply CK_seq; [apply CK_emiti|apply CK_dec; lia]]]|lia..].
  - apply andb_prop in Hp. destruct Hp as [P1 P2]. apply Nat.leb_le in P1.
    assert (X : CK lo hi (1 - Z.of_nat (arity o)) 0 0
                  (match arity o with O => inc 1 | S n => dec (Z.of_nat n) end)).
    { destruct (arity o) as [|k]; [apply CK_inc|].
      eapply CK_eq; [apply CK_dec; lia|lia..]. }
    eapply CK_eq; [apply CK_seq; [eapply CK_first; try eassumption; lia|
      apply CK_seq; [apply CK_emiti|exact X]]|lia..].
  - apply andb_prop in Hp. destruct Hp as [P1 P2]. apply andb_prop in P1. destruct P1 as [P0 P1].
    destruct args as [|e1 [|e2 args]]; try apply CK_error.
    cbn [pargs] in P2. apply andb_prop in P2. destruct P2 as [P2 P3].
    cbn [bsize] in Hs.
    eapply CK_eq; [apply CK_seq; [eapply IH; try eassumption; lia|
      eapply CK_bin; try eassumption; cbn [bsize]; lia]|lia..].
  - eapply CK_eq; [apply CK_seq; [eapply CK_args; try eassumption; lia|apply CK_seq;
      [apply CK_constant|apply CK_conses]]|lia..].
  - apply andb_prop in Hp. destruct Hp as [Hp P3]. apply andb_prop in Hp. destruct Hp as [P1 P2].
    apply negb_true_iff in P1.
    assert (X : CK lo hi 1 0 0 (comp [] d ls false e ;; cargs (comp [] d) ls args ;;
      emiti (Call (length args)) ;; note_call ;; dec (Z.of_nat (length args)))).
    { eapply CK_eq; [apply CK_seq; [eapply IH; try eassumption; lia|apply CK_seq;
        [eapply CK_args; try eassumption; lia|apply CK_seq; [apply CK_emiti|apply CK_seq;
        [apply CK_tagonly; apply to_call|apply CK_dec; lia]]]]|lia..]. }
    intros s s' R. destruct (head_var e) as [x|] eqn:Ef; [|revert R; apply X].
    rewrite (inlinable_none own ls rf e x s LO Ef P1) in R. revert R. apply X.
  - apply andb_prop in Hp. destruct Hp as [P1 P2]. eapply CK_lambda; try eassumption. lia.
  - apply andb_prop in Hp. destruct Hp as [Hp P4]. apply andb_prop in Hp. destruct Hp as [Hp P3].
    apply andb_prop in Hp. destruct Hp as [P1 P2].
    destruct d as [|d]; [intros s s' R; discriminate|]. cbn [iargs_of inl_of].
    eapply CK_eq; [apply CK_seq; [eapply CK_args; try eassumption; lia|
      eapply CK_inline; [exact LH| |exact LO|reflexivity|]]|..].
    + unfold surplus. destruct (rest p); [reflexivity|]. now rewrite P2.
    + intros lr Hlr LO'. eapply CK_body; try eassumption; lia.
    + lia. + lia. + lia.
  - apply andb_prop in Hp. destruct Hp as [Hp P3]. apply andb_prop in Hp. destruct Hp as [P1 P2].
    assert (X : CK lo hi 1 0 0 (comp [] d ls false e ;; cargs (comp [] d) ls args ;;
      emiti (Call (length args)) ;; note_call ;; dec (Z.of_nat (length args)))).
    { eapply CK_eq; [apply CK_seq; [eapply IH; try eassumption; lia|apply CK_seq;
        [eapply CK_args; try eassumption; lia|apply CK_seq; [apply CK_emiti|apply CK_seq;
        [apply CK_tagonly; apply to_call|apply CK_dec; lia]]]]|lia..]. }
    destruct e; try exact X. discriminate.
  - eapply CK_body; try eassumption. lia.
  - apply andb_prop in Hp. destruct Hp as [P1 P2].
    eapply CK_eq; [apply CK_seq; [eapply IH; try eassumption; lia|apply CK_seq;
      [eapply CK_body; try eassumption; lia|apply CK_seq; [apply CK_emiti|apply CK_dec; lia]]]|lia..].
  - apply CK_label; [assumption|]. intros el Hel.
    eapply CK_eq; [apply CK_seq; [eapply CK_cond; try eassumption; lia|apply CK_seq;
      [apply CK_inc|apply CK_emit; lia]]|lia..].
  - apply andb_prop in Hp. destruct Hp as [P1 P2].
    apply CK_label; [assumption|]. intros el Hel.
    eapply CK_eq; [apply CK_seq; [eapply IH; try eassumption; lia|apply CK_seq;
      [eapply CK_case; try eassumption; lia|apply CK_seq;
      [apply CK_inc|apply CK_seq; [apply CK_emit; lia|apply CK_seq; apply CK_emiti]]]]|lia..].
  - apply andb_prop in Hp. destruct Hp as [P1 P2].
    apply CK_label; [assumption|]. intros l1 Hl1. apply CK_label; [lia|]. intros l2 Hl2.
    eapply CK_eq; [apply CK_seq; [apply CK_emit; exact I|apply CK_seq; [apply CK_emit; lia|
      apply CK_seq; [eapply CK_body; try eassumption; lia|apply CK_seq; [apply CK_emiti|apply CK_seq;
      [apply CK_dec; lia|apply CK_seq; [apply CK_emit; lia|apply CK_seq;
      [eapply IH; try eassumption; lia|apply CK_emit; exact I]]]]]]]|lia..].
  - apply andb_prop in Hp. destruct Hp as [P1 P2].
    eapply CK_eq; [eapply CK_frame; apply CK_seq; [apply CK_emiti|apply CK_seq; [apply CK_binc|
      apply CK_seq; [eapply CK_lets; try eassumption; lia|apply CK_seq;
      [eapply CK_body; try eassumption; lia|apply CK_seq; [apply CK_emiti|apply CK_bdec]]]]]|lia..].
  - apply andb_prop in Hp. destruct Hp as [Hp P3]. apply andb_prop in Hp. destruct Hp as [P1 P2].
    apply negb_true_iff in P1.
    assert (X : CK lo hi 1 0 (length bs) ((emiti InitBind ;; binc ;; cnils bs ;; csets (comp [] d) ls bs)
      ;; cbody (comp [] d) ls rf b ;; emiti Unbind ;; bdec)).
    { eapply CK_eq; [apply CK_seq; [apply CK_seq; [apply CK_emiti|apply CK_seq; [apply CK_binc|
      apply CK_seq; [apply CK_nils|eapply CK_sets; try eassumption; lia]]]|apply CK_seq;
      [eapply CK_body; try eassumption; lia|apply CK_seq; [apply CK_emiti|apply CK_bdec]]]|lia..]. }
    eapply CK_frame. intros s s' R. apply X. unfold seq at 1.
    destruct ((emiti InitBind ;; binc ;; cnils bs ;; csets (comp [] d) ls bs) s); [|discriminate].
    rewrite (loop_none _ _ c P1) in R. exact R.
Qed.
