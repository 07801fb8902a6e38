(** Proofs about the interactive interpreter *)

From Coq Require Import ZArith List Bool Lia.
From Verif Require Import Repl_Model Repl_Spec.
Import ListNotations.
Open Scope Z_scope.

Lemma begins_spec : forall n t, begins n t = true <-> abbreviates n t.
Proof.
  induction n as [|x n IH]; intros t.
  - split; [intros _; exists t; reflexivity|reflexivity].
  - destruct t as [|y t]; cbn [begins].
    + split; [discriminate|intros (r & E); discriminate].
    + rewrite andb_true_iff, Z.eqb_eq, IH. split; [intros (-> & r & ->); exists r; reflexivity|intros (r & E)].
      injection E as -> ->. split; [reflexivity|exists r; reflexivity].
Qed.

Section Commands.
Context {C : Type}.
Lemma assq_some : forall n (l : list (list Z * C)) c, assq n l = Some c -> In c l /\ fst c = n.
Proof.
  induction l as [|c l IH]; intros d H; [discriminate|]. cbn [assq] in H. destruct (name_dec (fst c) n) as [E|E].
  - injection H as <-. split; [left; reflexivity|exact E].
  - destruct (IH d H) as (I & E'). split; [right; exact I|exact E'].
Qed.
Lemma assq_none : forall n (l : list (list Z * C)), assq n l = None -> ~ In n (map fst l).
Proof.
  induction l as [|c l IH]; intros H; [intros []|]. cbn [assq] in H. destruct (name_dec (fst c) n) as [E|E]; [discriminate|].
  intros [X|X]; [contradiction|exact (IH H X)].
Qed.
Lemma find_loop_matched : forall n l (m : list Z * C),
  find_loop n l (Some m) = if existsb (fun c => begins n (fst c)) l then Ambiguous else Cell m.
Proof.
  intros n. induction l as [|c l IH]; intros m; [reflexivity|]. cbn [find_loop existsb].
  destruct (begins n (fst c)); [reflexivity|]. apply IH.
Qed.
Lemma find_loop_cell : forall n (l : list (list Z * C)) c, find_loop n l None = Cell c ->
  exists l1 l2, l = l1 ++ c :: l2 /\ begins n (fst c) = true /\ (forall d, In d (l1 ++ l2) -> begins n (fst d) = false).
Proof.
  intros n. induction l as [|d l IH]; intros c H; [discriminate|]. cbn [find_loop] in H. destruct (begins n (fst d)) eqn:B.
  - rewrite find_loop_matched in H. destruct (existsb (fun c => begins n (fst c)) l) eqn:X; [discriminate|]. injection H as <-.
    exists [], l. split; [reflexivity|]. split; [exact B|]. intros e I. destruct (begins n (fst e)) eqn:Be; [|reflexivity].
    assert (existsb (fun c => begins n (fst c)) l = true) by (apply existsb_exists; exists e; auto). congruence.
  - destruct (IH c H) as (l1 & l2 & -> & Bc & Al). exists (d :: l1), l2. split; [reflexivity|]. split; [exact Bc|].
    intros e [<-|I]; [exact B|apply Al, I].
Qed.
Lemma find_loop_unknown : forall n (l : list (list Z * C)), find_loop n l None = Unknown -> forall d, In d l -> begins n (fst d) = false.
Proof.
  intros n. induction l as [|c l IH]; intros H d I; [destruct I|]. cbn [find_loop] in H. destruct (begins n (fst c)) eqn:B.
  - rewrite find_loop_matched in H. destruct (existsb _ l); discriminate.
  - destruct I as [<-|I]; [exact B|exact (IH H d I)].
Qed.
Lemma find_loop_ambiguous : forall n (l : list (list Z * C)), find_loop n l None = Ambiguous ->
  exists l1 c l2 d l3, l = l1 ++ c :: l2 ++ d :: l3 /\ begins n (fst c) = true /\ begins n (fst d) = true.
Proof.
  intros n. induction l as [|c l IH]; intros H; [discriminate|]. cbn [find_loop] in H. destruct (begins n (fst c)) eqn:B.
  - rewrite find_loop_matched in H. destruct (existsb (fun c => begins n (fst c)) l) eqn:X; [|discriminate].
    apply existsb_exists in X as (d & I & Bd). apply in_split in I as (l2 & l3 & ->). exists [], c, l2, d, l3. auto.
  - destruct (IH H) as (l1 & e & l2 & d & l3 & -> & H1 & H2). exists (c :: l1), e, l2, d, l3. auto.
Qed.

Lemma rplacd_keys : forall n (v : C) l, map fst (rplacd_cell n v l) = map fst l.
Proof. intros n v. induction l as [|c l IH]; [reflexivity|]. cbn [rplacd_cell]. destruct (name_dec (fst c) n); cbn; [reflexivity|]. f_equal. exact IH. Qed.
Lemma define_nodup : forall l (c : list Z * C), NoDup (map fst l) -> NoDup (map fst (define_command l c)).
Proof.
  intros l c N. unfold define_command. destruct (assq (fst c) l) eqn:E; [rewrite rplacd_keys; exact N|].
  cbn. constructor; [apply assq_none, E|exact N].
Qed.
Lemma rplacd_in : forall n (v : C) l, NoDup (map fst l) -> In n (map fst l) -> forall k w,
  In (k, w) (rplacd_cell n v l) <-> (k = n /\ w = v) \/ (k <> n /\ In (k, w) l).
Proof.
  intros n v. induction l as [|(a, u) l IH]; intros N I k w; [destruct I|]. inversion N as [|? ? N1 N2]; subst. cbn [rplacd_cell fst].
  cbn [map fst] in *. destruct (name_dec a n) as [->|D].
  - cbn [In]. split.
    + intros [[= <- <-]|J]; [left; auto|]. right. split; [intros ->; apply N1; apply (in_map fst) in J; exact J|auto].
    + intros [(-> & ->)|(D & [[= <- <-]|J])]; [left; reflexivity|congruence|right; exact J].
  - destruct I as [I|I]; [congruence|]. cbn [In]. rewrite (IH N2 I). split.
    + intros [[= <- <-]|[J|(J1 & J2)]]; [right; auto|left; exact J|right; auto].
    + intros [J|(J1 & [J2|J2])]; [right; left; exact J|left; exact J2|right; right; auto].
Qed.
Lemma define_in : forall l (c : list Z * C), NoDup (map fst l) -> forall k w,
  In (k, w) (define_command l c) <-> (k = fst c /\ w = snd c) \/ (k <> fst c /\ In (k, w) l).
Proof.
  intros l (n, v) N k w. unfold define_command. cbn [fst snd]. destruct (assq n l) as [c|] eqn:E.
  - apply assq_some in E as (I & E). apply (in_map fst) in I. rewrite E in I. apply rplacd_in; assumption.
  - apply assq_none in E. cbn [In]. split.
    + intros [[= <- <-]|J]; [left; auto|]. right. split; [intros ->; apply E; apply (in_map fst) in J; exact J|exact J].
    + intros [(-> & ->)|(_ & J)]; auto.
Qed.
Lemma definitions : forall (l : list (list Z * C)), NoDup (map fst (fold_left define_command l [])) /\
  forall k w, In (k, w) (fold_left define_command l []) <-> defined l k w.
Proof.
  intros l. induction l as [|(n, v) l (N & IH)] using rev_ind.
  - split; [constructor|]. intros k w. split; [intros []|]. intros (l1 & l2 & E & _). destruct l1; discriminate.
  - rewrite fold_left_app. cbn [fold_left]. split; [apply define_nodup, N|]. intros k w. rewrite define_in by exact N. cbn [fst snd]. rewrite IH. split.
    + intros [(-> & ->)|(D & l1 & l2 & -> & X)]; [exists l, []; split; [reflexivity|intros []]|].
      exists l1, (l2 ++ [(n, v)]). split; [rewrite <- app_assoc; reflexivity|]. rewrite map_app, in_app_iff. cbn. intros [Y|[Y|[]]]; [exact (X Y)|congruence].
    + intros (l1 & l2 & E & X). destruct l2 as [|z l2 _] using rev_ind.
      * apply app_inj_tail in E as (_ & [= <- <-]). left. auto.
      * rewrite app_comm_cons, app_assoc in E. apply app_inj_tail in E as (-> & <-). rewrite map_app, in_app_iff in X. cbn in X.
        right. split; [intros ->; apply X; right; left; reflexivity|]. exists l1, l2. split; [reflexivity|]. intros Y. apply X. left. exact Y.
Qed.
End Commands.

Section Input.
Context {F : Type}.
Variable kind_of : list Z -> kind.
Variable read : list Z -> reading F.

Lemma run_entry : forall lines pre lg d more, lines <> [] ->
  (forall a b, lines = a ++ b -> a <> [] -> b <> [] -> kind_of (pre ++ concat a) = KForm /\ read (pre ++ concat a) = Premature /\ pre ++ concat a <> []) ->
  match d with
  | Evaluated x => kind_of (pre ++ concat lines) = KForm /\ exists rest, read (pre ++ concat lines) = Whole x rest
  | Commanded t => kind_of (pre ++ concat lines) = KCommand /\ t = pre ++ concat lines
  | Failed => kind_of (pre ++ concat lines) = KForm /\ read (pre ++ concat lines) = Bad
  end ->
  run_repl kind_of read (mkrepl pre lg) (lines ++ more) = run_repl kind_of read (mkrepl [] (lg ++ [d])) more.
Proof.
  induction lines as [|l lines IH]; intros pre lg d more Ne P D; [congruence|]. cbn [app run_repl]. destruct lines as [|l' lines].
  - cbn [concat] in D. rewrite app_nil_r in D. unfold iterate. cbn [pending log]. destruct d as [x|t|].
    + destruct D as (-> & rest & ->). reflexivity.
    + destruct D as (-> & ->). reflexivity.
    + destruct D as (-> & ->). reflexivity.
  - destruct (P [l] (l' :: lines) eq_refl) as (K & R & N); try discriminate. cbn [concat] in K, R, N. rewrite app_nil_r in K, R, N.
    unfold iterate. cbn [pending log]. rewrite K, R. destruct (pre ++ l) as [|z u] eqn:E; [congruence|]. rewrite <- E.
    apply IH; [discriminate| |].
    + intros a b Eq Na Nb. rewrite <- app_assoc. apply (P (l :: a) b); [cbn; f_equal; exact Eq|discriminate|exact Nb].
    + rewrite <- app_assoc. exact D.
Qed.
Lemma run_entries : forall es lg, Forall (fun e => entry kind_of read (fst e) (snd e)) es ->
  run_repl kind_of read (mkrepl [] lg) (concat (map fst es)) = mkrepl [] (lg ++ map snd es).
Proof.
  induction es as [|(lines, d) es IH]; intros lg H; [cbn; rewrite app_nil_r; reflexivity|].
  inversion H as [|? ? (Ne & P & D) Hs]; subst. cbn [map concat fst snd] in *.
  rewrite (run_entry lines [] lg d _ Ne P D). rewrite IH by exact Hs. rewrite <- app_assoc. reflexivity.
Qed.
End Input.
