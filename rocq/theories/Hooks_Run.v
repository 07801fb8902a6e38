From Coq Require Import ZArith List Bool Arith Lia.
From Verif Require Import Lists_Model Lists_Spec Lists_Proofs Hooks_Model Hooks_Spec Hooks_Proofs.
Import ListNotations.

(** ** More budget changes nothing *)
Lemma to_end_mono : forall n m h v l e, to_end n h v l = Some e -> n <= m -> to_end m h v l = Some e.
Proof.
  induction n as [|n IH]; intros [|m] h v l e H L; try discriminate; try lia. cbn in *.
  destruct (load h v l); auto. apply IH; auto. lia.
Qed.
Lemma nconc_mono : forall argv n m h r e x, nconc_loop n h r e argv = Some x -> n <= m -> nconc_loop m h r e argv = Some x.
Proof.
  induction argv as [|a rest IH]; intros n m h r e x H L; cbn [nconc_loop] in *; auto. cbv zeta in *.
  destruct ((match rest with [] => true | _ => false end) || listp a); [|discriminate].
  destruct (store h r e a) as [h1 r1]. destruct (to_end n h1 r1 e) as [e1|] eqn:E; [|discriminate].
  rewrite (to_end_mono _ _ _ _ _ _ E L). eauto.
Qed.
Lemma delete_mono : forall n m del h l hd x, delete_loop n del h l hd = Some x -> n <= m -> delete_loop m del h l hd = Some x.
Proof.
  induction n as [|n IH]; intros [|m] del h l hd x H L; try discriminate; try lia. cbn in *.
  destruct (load h l hd); auto. destruct (del (fst (mem h p))).
  - destruct (store h l hd (snd (mem h p))). apply IH; auto. lia.
  - apply IH; auto. lia.
Qed.
Lemma add_hook_mono : forall n m w k f e d, add_hook n w k f e = d -> d <> Unfinished -> n <= m -> add_hook m w k f e = d.
Proof.
  intros n m w k f e d H U L. unfold add_hook in *. destruct e; auto.
  destruct (listp _); auto. destruct (cons (hp w) f Nil) as [h1 c]. unfold nconc in *.
  match type of H with context [nconc_loop n ?a ?b ?c ?d] => destruct (nconc_loop n a b c d) as [[h2 v]|] eqn:E end; [|congruence].
  rewrite (nconc_mono _ _ _ _ _ _ _ E L). auto.
Qed.
Lemma remove_mono : forall n m w k del d, remove_by n w k del = d -> d <> Unfinished -> n <= m -> remove_by m w k del = d.
Proof.
  intros n m w k del d H U L. unfold remove_by in *. destruct (var w k) as [v|]; auto. destruct (listp v) eqn:Lv; auto.
  unfold delete_by in *. rewrite Lv in *. destruct (delete_loop n del (hp w) v PVar) as [[h2 u]|] eqn:E; [|congruence].
  rewrite (delete_mono _ _ _ _ _ _ _ E L). auto.
Qed.

(** ** What an action does to where a run stands *)
Definition same_start (l l' : list (nat * val)) : Prop := hd_error (addrs l') = hd_error (addrs l).
Definition follows (P : val -> bool) (Q : val -> Prop) (l l' : list (nat * val)) : Prop :=
  same_start l l' /\ filter P (elems (tl l')) = filter P (elems (tl l)) /\
  (Forall Q (elems l) -> Forall Q (elems l')).

Lemma follows_refl : forall P Q l, follows P Q l l.
Proof. intros. repeat split; auto. Qed.
Lemma follows_trans : forall P Q a b c, follows P Q a b -> follows P Q b c -> follows P Q a c.
Proof.
  intros P Q a b c (A1 & A2 & A3) (B1 & B2 & B3). repeat split; auto; unfold same_start in *; congruence.
Qed.

Lemma follows_add : forall P (Q : val -> Prop) (l : list (nat * val)) n f, l <> [] -> P f = false -> Q f -> follows P Q l (l ++ [(n, f)]).
Proof.
  intros P Q [|[p x] l] n f N Pf Qf; [congruence|]. repeat split.
  - cbn. rewrite elems_app, filter_app. cbn. rewrite Pf. apply app_nil_r.
  - intros F. rewrite elems_app. apply Forall_app. split; auto. constructor; auto.
Qed.

Lemma filter_keep_P : forall (P del : val -> bool) t, (forall g, del g = true -> P g = false) ->
  filter P (elems (filter (keep del) t)) = filter P (elems t).
Proof.
  intros P del t H. induction t as [|[p x] t IH]; cbn; auto. unfold keep at 1. cbn. destruct (del x) eqn:E; cbn.
  - rewrite (H x E). exact IH.
  - destruct (P x); [f_equal|]; exact IH.
Qed.
Lemma forall_filter_keep : forall (Q : val -> Prop) del t, Forall Q (elems t) -> Forall Q (elems (filter (keep del) t)).
Proof.
  intros Q del t. induction t as [|[p x] t IH]; cbn; auto. intros H. inversion H; subst.
  destruct (keep del (p, x)); cbn; auto.
Qed.
Lemma follows_remove : forall P Q del s t, (forall g, del g = true -> P g = false) ->
  match t with [] => True | c :: _ => del (snd c) = false end ->
  follows P Q (s ++ t) (s ++ filter (keep del) t).
Proof.
  intros P Q del s t H T. destruct s as [|c s].
  - destruct t as [|[p x] t]; [apply follows_refl|]. cbn in T. cbn [app filter]. unfold keep at 1. cbn. rewrite T. cbn.
    repeat split.
    + cbn. apply filter_keep_P; auto.
    + cbn. intros F. inversion F; subst. constructor; auto. apply forall_filter_keep; auto.
  - repeat split.
    + cbn. rewrite !elems_app, !filter_app, filter_keep_P; auto.
    + cbn. rewrite !elems_app. intros F. inversion F; subst. constructor; auto. apply Forall_app in H3. apply Forall_app.
      split; [tauto|]. apply forall_filter_keep; tauto.
Qed.

Lemma filter_shorter : forall {A} (f : A -> bool) l, length (filter f l) <= length l.
Proof. intros A f l. induction l as [|a l IH]; cbn; auto. destruct (f a); cbn; lia. Qed.

Lemma cursor_nil : forall w L k, cursor w L k [].
Proof. intros w L k. exists [], [], (L k), Nil. cbn. rewrite app_nil_r. repeat split; tauto. Qed.
Lemma cursor_all : forall w L k, hooks_are w L -> cursor w L k (L k).
Proof.
  intros w L k (V & _). specialize (V k). exists [], (L k), [], (hook_value w k). cbn. repeat split; try tauto.
  unfold hook_value. destruct (var w k); [apply V|rewrite V; reflexivity].
Qed.
Lemma cursor_tl : forall w L k c l, cursor w L k (c :: l) -> cursor w L k l.
Proof.
  intros w L k [p x] l (s & t & pre & v & E & EL & C & S). cbn in C. destruct C as (_ & _ & C). destruct s as [|c s].
  - cbn in E. subst t. exists [], l, (pre ++ [(p, x)]), (snd (mem (hp w) p)). rewrite <- app_assoc. cbn. repeat split; auto; tauto.
  - cbn in E. inversion E; subst. exists s, t, pre, (snd (mem (hp w) p)). split; auto. split; auto. split; auto.
    intros q Hq. apply S. right. auto.
Qed.
Lemma cursor_chain : forall w L k l, cursor w L k l ->
  chain (hp w) (match l with [] => Nil | c :: _ => Cell (fst c) end) l Nil.
Proof.
  intros w L k l (s & t & pre & v & E & EL & C & S). destruct l as [|[p x] l]; cbn in *; auto. tauto.
Qed.
Lemma cursor_note : forall w L k l f, cursor w L k l -> cursor (note_call w f) L k l.
Proof. intros w L k l f H. exact H. Qed.
Lemma hooks_note : forall w L f, hooks_are w L -> hooks_are (note_call w f) L.
Proof. intros w L f H. exact H. Qed.

Lemma last_default : forall {A} (l : list A) d d', l <> [] -> last l d = last l d'.
Proof.
  intros A l d d'. induction l as [|a [|b l] IH]; intros H; auto; [congruence|]. cbn [last] in *. apply IH. discriminate.
Qed.

Section Run.
  Variable does : val -> list val -> list act * ans.
  Variable name_of : val -> Z.

  (** one action that does not run a hook *)
  Definition prim (n : nat) (w : world) (a : act) : did :=
    match a with
    | Add k f e => add_hook n w k f e
    | Remove k f => remove_hook n w k f
    | RemoveNamed k m => remove_hook_by_name name_of n w k m
    | Run _ _ => Unfinished
    end.

  Lemma remove_step : forall P Q del k0 n w k L, hooks_are w L ->
    (k = k0 -> forall g, del g = true -> P g = false) ->
    remove_by n w k del = Unfinished \/
    exists w' L', remove_by n w k del = Did w' /\ hooks_are w' L' /\
      (forall l, cursor w L k0 l -> exists l', cursor w' L' k0 l' /\ follows P Q l l' /\ length l' <= length l).
  Proof.
    intros P Q del k0 n w k L H SPR. destruct (remove_by n w k del) eqn:E; auto; right;
    destruct (remove_ok (n + S (length (L k))) w k del L H ltac:(lia)) as (w1 & R & _ & H1 & C1);
    rewrite (remove_mono n (n + S (length (L k))) w k del _ E) in R by (congruence || lia); [discriminate|].
    inversion R; subst w1. exists w0, (putL L k (filter (keep del) (L k))). split; auto. split; auto.
    intros l C. destruct (C1 k0 l C) as (l' & C' & [->|(-> & s & t & -> & -> & T)]).
    - exists l. split; auto. split; [apply follows_refl|auto].
    - eexists. split; [exact C'|]. split; [apply follows_remove; auto|]. rewrite !app_length.
      pose proof (filter_shorter (keep del) t). lia.
  Qed.

  Lemma prim_ok : forall P Q k0 a n w L, hooks_are w L -> spares name_of P k0 a -> appends_only Q k0 a ->
    (forall k ty, a <> Run k ty) ->
    prim n w a = Unfinished \/
    exists w' L', prim n w a = Did w' /\ hooks_are w' L' /\
      (forall l, cursor w L k0 l -> exists l', cursor w' L' k0 l' /\ follows P Q l l' /\
         ((forall f, a <> Add k0 f true) -> length l' <= length l)).
  Proof.
    intros P Q k0 [k f e|k f|k m|k ty] n w L H SPR A NR; cbn [prim].
    - destruct e.
      + destruct (add_hook n w k f true) eqn:E; auto; right;
        destruct (add_end_ok (n + S (S (length (L k)))) w k f L H ltac:(lia)) as (w1 & R & _ & H1 & C1);
        rewrite (add_hook_mono n (n + S (S (length (L k)))) w k f true _ E) in R by (congruence || lia); [discriminate|].
        inversion R; subst w1. eexists. eexists. split; [reflexivity|]. split; [exact H1|].
        intros l C. destruct (C1 k0 l C) as (l' & C' & [->|(-> & N & ->)]).
        * exists l. split; auto. split; [apply follows_refl|auto].
        * eexists. split; [exact C'|]. split; [apply follows_add; auto|]. intros Z.
          exfalso. exact (Z f eq_refl).
      + right. destruct (add_front_ok n w k f L H) as (w1 & R & _ & H1 & C1). eexists. eexists.
        split; [exact R|]. split; [exact H1|]. intros l C. exists l. split; [apply C1; auto|]. split; [apply follows_refl|auto].
    - unfold remove_hook. destruct (remove_step P Q (val_eqb f) k0 n w k L H SPR) as [U|(w' & L' & R & H' & C)]; auto.
      right. exists w', L'. split; [auto|]. split; [auto|]. intros l Hl. destruct (C l Hl) as (l' & ? & ? & ?). eauto.
    - unfold remove_hook_by_name.
      destruct (remove_step P Q (fun f => Z.eqb (name_of f) m) k0 n w k L H SPR) as [U|(w' & L' & R & H' & C)]; auto.
      right. exists w', L'. split; [auto|]. split; [auto|]. intros l Hl. destruct (C l Hl) as (l' & ? & ? & ?). eauto.
    - exfalso. exact (NR k ty eq_refl).
  Qed.

  Lemma call_loop_S : forall n w hook ty res, call_loop does name_of (S n) w hook ty res =
      match hook with
      | Cell p =>
        let f := fst (mem (hp w) p) in
        let '(acts, a) := does f (log w) in
        match (match do_acts does name_of n (note_call w f) acts with
          | Unfinished => None
          | Failed w' => Some (w', Thrown)
          | Did w' => Some (w', a)
          end) with
        | None => None
        | Some (w', res') =>
          if stops ty res' then Some (w', [(f, res')], res')
          else match call_loop does name_of n w' (snd (mem (hp w') p)) ty res' with
               | Some (w'', calls, r) => Some (w'', (f, res') :: calls, r)
               | None => None
               end
        end
      | _ => Some (w, [], res)
      end.
  Proof. reflexivity. Qed.
  Lemma do_acts_nil : forall n w, do_acts does name_of (S n) w [] = Did w.
  Proof. reflexivity. Qed.
  Lemma do_acts_run : forall n w k ty rest, do_acts does name_of (S n) w (Run k ty :: rest) =
    match call_loop does name_of n w (hook_value w k) ty (Ret Nil) with
    | None => Unfinished
    | Some (w', _, Thrown) => Failed w'
    | Some (w', _, Ret _) => do_acts does name_of n w' rest
    end.
  Proof.
    intros. cbn [do_acts]. cbv zeta. fold (call_loop does name_of).
    destruct (call_loop does name_of n w (hook_value w k) ty (Ret Nil)) as [[[w' c] [v|]]|]; reflexivity.
  Qed.
  Lemma do_acts_prim : forall n w a rest, (forall k ty, a <> Run k ty) -> do_acts does name_of (S n) w (a :: rest) =
    match prim n w a with Did w' => do_acts does name_of n w' rest | d => d end.
  Proof.
    intros n w a rest H. destruct a; cbn [do_acts prim]; cbv zeta.
    - destruct (add_hook n w k f at_end); reflexivity.
    - destruct (remove_hook n w k f); reflexivity.
    - destruct (remove_hook_by_name name_of n w k n0); reflexivity.
    - exfalso. exact (H k ty eq_refl).
  Qed.

  Definition is_run (a : act) : {p | a = Run (fst p) (snd p)} + {forall k ty, a <> Run k ty}.
  Proof. destruct a; try (right; congruence). left. exists (k, ty). reflexivity. Defined.

  (** ** Nothing that happens loses the place of a run *)
  Section Invariant.
    Variables (P : val -> bool) (Q : val -> Prop) (k0 : nat).
    Hypothesis SP : forall f lg, Forall (spares name_of P k0) (fst (does f lg)).
    Hypothesis AP : forall f lg, Forall (appends_only Q k0) (fst (does f lg)).

    Definition kept (l : list (nat * val)) (w' : world) : Prop :=
      exists L' l', hooks_are w' L' /\ cursor w' L' k0 l' /\ follows P Q l l'.

    Lemma kept_all : forall n,
      (forall w hook ty res w' calls r L l, hooks_are w L -> cursor w L k0 l ->
         call_loop does name_of n w hook ty res = Some (w', calls, r) -> kept l w') /\
      (forall w acts w' L l, hooks_are w L -> cursor w L k0 l ->
         Forall (spares name_of P k0) acts -> Forall (appends_only Q k0) acts ->
         do_acts does name_of n w acts = Failed w' \/ do_acts does name_of n w acts = Did w' -> kept l w').
    Proof.
      induction n as [|n (IHc & IHa)]; [split; [discriminate|intros ? ? ? ? ? ? ? ? ? [H|H]; discriminate]|]. split.
      - intros w hook ty res w' calls r L l H C R. rewrite call_loop_S in R.
        destruct hook as [|p|z]; [inversion R; subst; exists L, l; split; [auto|split; [auto|apply follows_refl]]| |inversion R; subst; exists L, l; split; [auto|split; [auto|apply follows_refl]]].
        cbv zeta in R. destruct (does (fst (mem (hp w) p)) (log w)) as [acts a] eqn:Ed.
        pose proof (SP (fst (mem (hp w) p)) (log w)) as Sp. pose proof (AP (fst (mem (hp w) p)) (log w)) as Ap.
        rewrite Ed in Sp, Ap. cbn [fst] in Sp, Ap.
        pose proof (IHa (note_call w (fst (mem (hp w) p))) acts) as IHa'.
        destruct (do_acts does name_of n (note_call w (fst (mem (hp w) p))) acts) as [|w1|w1]; [discriminate| |].
        + cbn [stops] in R. inversion R; subst. exact (IHa' _ L l H C Sp Ap (or_introl eq_refl)).
        + destruct (IHa' w1 L l H C Sp Ap (or_intror eq_refl)) as (L1 & l1 & H1 & C1 & F1).
          destruct (stops ty a); [inversion R; subst; exists L1, l1; auto|].
          destruct (call_loop does name_of n w1 (snd (mem (hp w1) p)) ty a) as [[[w2 c2] r2]|] eqn:E; [|discriminate].
          inversion R; subst. destruct (IHc _ _ _ _ _ _ _ L1 l1 H1 C1 E) as (L2 & l2 & H2 & C2 & F2).
          exists L2, l2. split; auto. split; auto. eapply follows_trans; eauto.
      - intros w acts w' L l H C Sp Ap R. destruct acts as [|a rest].
        + rewrite do_acts_nil in R. destruct R as [R|R]; inversion R; subst. exists L, l. split; auto. split; auto. apply follows_refl.
        + inversion Sp; subst. inversion Ap; subst. destruct (is_run a) as [[[k ty] ->]|NR].
          * cbn [fst snd] in *. rewrite do_acts_run in R.
            destruct (call_loop does name_of n w (hook_value w k) ty (Ret Nil)) as [[[w1 c1] [v|]]|] eqn:E.
            -- destruct (IHc _ _ _ _ _ _ _ L l H C E) as (L1 & l1 & H1' & C1 & F1).
               destruct (IHa w1 rest w' L1 l1) as (L2 & l2 & X & Y & Z); auto.
               exists L2, l2. split; auto. split; auto. eapply follows_trans; eauto.
            -- destruct R as [R|R]; inversion R; subst. eapply IHc; eauto.
            -- destruct R; discriminate.
          * rewrite do_acts_prim in R by auto.
            destruct (prim_ok P Q k0 a n w L H) as [U|(w1 & L1 & U & H1' & C1)]; auto; rewrite U in R.
            -- destruct R; discriminate.
            -- destruct (C1 l C) as (l1 & C1' & F1 & _).
               destruct (IHa w1 rest w' L1 l1) as (L2 & l2 & X & Y & Z); auto.
               exists L2, l2. split; auto. split; auto. eapply follows_trans; eauto.
    Qed.

    Lemma stops_ends : forall ty a, stops ty a = true <-> ends_run ty a.
    Proof.
      intros ty a. unfold ends_run. destruct a as [v|].
      - destruct ty, v; cbn; split; intros H; try discriminate; auto;
          try (right; left; auto; fail); try (right; right; split; auto; eexists; split; [reflexivity|congruence]; fail);
          destruct H as [H|[(A & B)|(A & u & B & N)]]; try discriminate; congruence.
      - cbn. split; auto.
    Qed.

    Definition ran_as (ty : hook_type) (init : list val) (calls : list (val * ans)) (r : ans) (res : ans) : Prop :=
      exists rest,
        filter P init = filter P (map fst calls) ++ rest /\
        (forall c1 x c2, calls = c1 ++ x :: c2 -> c2 <> [] -> ~ ends_run ty (snd x)) /\
        (rest = [] \/ (calls <> [] /\ ends_run ty r)) /\
        r = last (map snd calls) res.

    Lemma run_ok : forall n w ty res w' calls r L l, hooks_are w L -> cursor w L k0 l ->
      call_loop does name_of n w (match l with [] => Nil | c :: _ => Cell (fst c) end) ty res = Some (w', calls, r) ->
      (exists L', hooks_are w' L') /\ ran_as ty (elems l) calls r res /\ (Forall Q (elems l) -> Forall Q (map fst calls)).
    Proof.
      induction n as [|n IH]; intros w ty res w' calls r L l H C R; [discriminate|]. rewrite call_loop_S in R.
      destruct l as [|[p x] l].
      { inversion R; subst. split; [eauto|]. split; [|auto]. exists []. repeat split; auto.
        intros [|] ? ? E; discriminate E. }
      cbn [fst] in R. cbv zeta in R. pose proof (cursor_chain _ _ _ _ C) as CH. cbn in CH. destruct CH as (_ & EX & _).
      rewrite EX in R. clear EX. destruct (does x (log w)) as [acts a] eqn:Ed.
      pose proof (SP x (log w)) as Sp. pose proof (AP x (log w)) as Ap. rewrite Ed in Sp, Ap. cbn [fst] in Sp, Ap.
      pose proof (fun w1 => proj2 (kept_all n) (note_call w x) acts w1 L ((p, x) :: l) H C Sp Ap) as K.
      destruct (do_acts does name_of n (note_call w x) acts) as [|w1|w1]; [discriminate| |].
      - cbn [stops] in R. inversion R; subst. destruct (K w') as (L1 & l1 & H1 & _ & _); auto. split; [eauto|].
        split.
        + exists (filter P (elems l)). cbn. repeat split.
          * destruct (P x); reflexivity.
          * intros [|c0 [|]] ? c2 E N; inversion E; subst; congruence.
          * right. split; [discriminate|]. left. reflexivity.
        + cbn. intros F. inversion F; subst. constructor; auto.
      - destruct (K w1) as (L1 & l1 & H1 & C1 & (F1 & F2 & F3)); auto.
        destruct (stops ty a) eqn:Es.
        + inversion R; subst. split; [eauto|]. split.
          * exists (filter P (elems l)). cbn. repeat split.
            -- destruct (P x); reflexivity.
            -- intros [|c0 [|]] ? c2 E N; inversion E; subst; congruence.
            -- right. split; [discriminate|]. apply stops_ends; auto.
          * cbn. intros F. inversion F; subst. constructor; auto.
        + destruct (call_loop does name_of n w1 (snd (mem (hp w1) p)) ty a) as [[[w2 c2] r2]|] eqn:E; [|discriminate].
          inversion R; subst. destruct l1 as [|[p1 x1] l1]; [discriminate F1|]. cbn in F1. inversion F1; subst p1.
          pose proof (cursor_chain _ _ _ _ C1) as CH. cbn in CH. destruct CH as (_ & EX1 & CH).
          pose proof (cursor_tl _ _ _ _ _ C1) as C2.
          assert (ES : snd (mem (hp w1) p) = match l1 with [] => Nil | c :: _ => Cell (fst c) end).
          { destruct l1 as [|[q y] l1]; cbn in CH |- *; tauto. }
          rewrite ES in E. destruct (IH _ _ _ _ _ _ _ _ H1 C2 E) as (HL & (rest & R1 & R2 & R3 & R4) & RQ).
          split; auto. split.
          * exists rest. cbn [map fst elems filter snd] in *. cbn [tl] in F2. repeat split.
            -- fold (elems l). fold (elems l1) in R1. rewrite <- F2, R1. destruct (P x); reflexivity.
            -- intros [|c0 c1] x0 c3 Ec N.
               ++ cbn in Ec. inversion Ec; subst. cbn. intros Z. apply stops_ends in Z. congruence.
               ++ cbn in Ec. inversion Ec; subst. eapply R2; eauto.
            -- destruct R3 as [->|(R3 & R5)]; auto. right. split; [discriminate|auto].
            -- rewrite R4. destruct c2 as [|[y b] c2]; [reflexivity|]. cbn [map snd]. apply (last_default (b :: map snd c2)). discriminate.
          * intros F. cbn in F |- *. constructor; [inversion F; auto|]. apply RQ.
            cbn in F3. apply F3 in F. inversion F; auto.
    Qed.
  End Invariant.

  (** ** More budget, and runs that end *)
  Lemma call_mono : forall n,
    (forall m w hook ty res x, call_loop does name_of n w hook ty res = Some x -> n <= m ->
       call_loop does name_of m w hook ty res = Some x) /\
    (forall m w acts d, do_acts does name_of n w acts = d -> d <> Unfinished -> n <= m -> do_acts does name_of m w acts = d).
  Proof.
    induction n as [|n (IHc & IHa)]; [split; [discriminate|intros; cbn in *; congruence]|]. split.
    - intros [|m] w hook ty res x R L; [lia|]. rewrite call_loop_S in *. destruct hook; auto. cbv zeta in *.
      destruct (does (fst (mem (hp w) p)) (log w)) as [acts a].
      destruct (do_acts does name_of n (note_call w (fst (mem (hp w) p))) acts) as [|w1|w1] eqn:E; [discriminate| |];
        rewrite (IHa m _ _ _ E) by (congruence || lia); auto.
      destruct (stops ty a); auto.
      destruct (call_loop does name_of n w1 (snd (mem (hp w1) p)) ty a) as [[[w2 c2] r2]|] eqn:E2; [|discriminate].
      rewrite (IHc m _ _ _ _ _ E2) by lia. auto.
    - intros [|m] w acts d R U L; [lia|]. destruct acts as [|a rest]; [exact R|].
      destruct (is_run a) as [[[k ty] ->]|NR].
      + cbn [fst snd] in *. rewrite do_acts_run in *.
        destruct (call_loop does name_of n w (hook_value w k) ty (Ret Nil)) as [[[w1 c1] r1]|] eqn:E; [|congruence].
        rewrite (IHc m _ _ _ _ _ E) by lia. destruct r1; auto. apply IHa; auto. lia.
      + rewrite do_acts_prim in * by auto.
        assert (PM : prim n w a <> Unfinished -> prim m w a = prim n w a).
        { intros N. destruct a; cbn [prim] in *.
          - eapply add_hook_mono; eauto. lia.
          - unfold remove_hook in *. eapply remove_mono; eauto. lia.
          - unfold remove_hook_by_name in *. eapply remove_mono; eauto. lia.
          - congruence. }
        destruct (prim n w a) as [|w1|w1] eqn:E; [congruence| |]; rewrite PM by congruence; auto. apply IHa; auto. lia.
  Qed.

  Section Ends.
    Variable k0 : nat.
    Hypothesis NE : forall f lg, Forall (fun a => (forall f', a <> Add k0 f' true) /\ forall k ty, a <> Run k ty) (fst (does f lg)).

    Lemma spares_none : forall a, (forall f', a <> Add k0 f' true) -> spares name_of (fun _ => false) k0 a.
    Proof. intros [k f []|k f|k n|k ty] H; cbn; auto. Qed.
    Lemma appends_any : forall a, appends_only (fun _ => True) k0 a.
    Proof. intros [k f []|k f|k n|k ty]; cbn; auto. Qed.

    Lemma prim_finishes : forall a w L, hooks_are w L -> (forall k ty, a <> Run k ty) ->
      exists n w', prim n w a = Did w'.
    Proof.
      intros [k f []|k f|k m|k ty] w L H NR; cbn [prim].
      - destruct (add_end_ok (S (S (length (L k)))) w k f L H ltac:(lia)) as (w1 & R & _). eauto.
      - destruct (add_front_ok 0 w k f L H) as (w1 & R & _). eauto.
      - destruct (remove_ok (S (length (L k))) w k (val_eqb f) L H ltac:(lia)) as (w1 & R & _). exists (S (length (L k))), w1. exact R.
      - destruct (remove_ok (S (length (L k))) w k (fun f => Z.eqb (name_of f) m) L H ltac:(lia)) as (w1 & R & _).
        exists (S (length (L k))), w1. exact R.
      - exfalso. exact (NR k ty eq_refl).
    Qed.

    Lemma prim_mono : forall n m w a w', prim n w a = Did w' -> n <= m -> prim m w a = Did w'.
    Proof.
      intros n m w [k f e|k f|k x|k ty] w' H L; cbn [prim] in *; try discriminate.
      - eapply add_hook_mono; eauto. congruence.
      - unfold remove_hook in *. eapply remove_mono; eauto. congruence.
      - unfold remove_hook_by_name in *. eapply remove_mono; eauto. congruence.
    Qed.

    Lemma acts_finish : forall acts w L l, hooks_are w L -> cursor w L k0 l ->
      Forall (fun a => (forall f', a <> Add k0 f' true) /\ forall k ty, a <> Run k ty) acts ->
      exists n w' L' l', do_acts does name_of n w acts = Did w' /\ hooks_are w' L' /\ cursor w' L' k0 l' /\
        same_start l l' /\ length l' <= length l.
    Proof.
      induction acts as [|a acts IH]; intros w L l H C F.
      - exists 1, w, L, l. repeat split; auto; apply H.
      - inversion F as [|? ? (F1 & F2) F3]; subst.
        destruct (prim_finishes a w L H F2) as (n1 & w1 & R1).
        destruct (prim_ok (fun _ => false) (fun _ => True) k0 a n1 w L H (spares_none a F1) (appends_any a) F2)
          as [U|(w1' & L1 & R1' & H1 & C1)]; [congruence|]. rewrite R1 in R1'. inversion R1'; subst w1'.
        destruct (C1 l C) as (l1 & C1' & (S1 & _ & _) & Len). specialize (Len F1).
        destruct (IH w1 L1 l1 H1 C1' F3) as (n2 & w2 & L2 & l2 & R2 & H2 & C2 & S2 & Len2).
        exists (S (n1 + n2)), w2, L2, l2. split.
        + rewrite do_acts_prim by auto. rewrite (prim_mono n1 (n1 + n2) w a w1 R1) by lia.
          apply (proj2 (call_mono n2)); [exact R2|congruence|lia].
        + repeat split; auto; try apply H2; try lia. unfold same_start in *. congruence.
    Qed.

    Lemma run_finishes : forall m w ty res L l, length l <= m -> hooks_are w L -> cursor w L k0 l ->
      exists n x, call_loop does name_of n w (match l with [] => Nil | c :: _ => Cell (fst c) end) ty res = Some x.
    Proof.
      induction m as [|m IH]; intros w ty res L l Len H C.
      - destruct l; [|cbn in Len; lia]. exists 1. cbn. eauto.
      - destruct l as [|[p x] l]; [exists 1; cbn; eauto|].
        pose proof (cursor_chain _ _ _ _ C) as CH. cbn in CH. destruct CH as (_ & EX & _).
        destruct (does x (log w)) as [acts a] eqn:Ed. pose proof (NE x (log w)) as N. rewrite Ed in N. cbn [fst] in N.
        destruct (acts_finish acts (note_call w x) L ((p, x) :: l) H C N) as (n1 & w1 & L1 & l1 & R1 & H1 & C1 & S1 & Len1).
        destruct l1 as [|[p1 x1] l1]; [discriminate S1|]. cbn in S1. inversion S1; subst p1.
        pose proof (cursor_chain _ _ _ _ C1) as CH. cbn in CH. destruct CH as (_ & EX1 & CH).
        pose proof (cursor_tl _ _ _ _ _ C1) as C2.
        assert (ES : snd (mem (hp w1) p) = match l1 with [] => Nil | c :: _ => Cell (fst c) end).
        { destruct l1 as [|[q y] l1]; cbn in CH |- *; tauto. }
        cbn in Len, Len1. destruct (IH w1 ty a L1 l1 ltac:(lia) H1 C2) as (n2 & [[w2 c2] r2] & R2).
        exists (S (n1 + n2)). rewrite call_loop_S. cbn [fst]. cbv zeta. rewrite EX, Ed.
        rewrite (proj2 (call_mono n1) (n1 + n2) _ _ _ R1) by (congruence || lia).
        destruct (stops ty a); [eauto|]. rewrite ES. rewrite (proj1 (call_mono n2) (n1 + n2) _ _ _ _ _ R2) by lia. eauto.
    Qed.
  End Ends.
End Run.
