(** Weak references and the sweeps. *)

From Coq Require Import ZArith List Bool Arith Lia.
Import ListNotations.
From Verif Require Import Gc_Model Gc_Spec Gc_Mark Gc_Guardians.

Definition cleared (m : marks) (v : value) : value :=
  match v with VPtr q => if m q then v else Qnil | _ => v end.

Lemma scan_weak_ok refs : forall c m acc,
  NoDup refs ->
  (forall w, In w refs -> exists v, c w = Some (OWeak v) /\
     match v with VNull => False | VInt _ => True | VPtr q => c q <> None end) ->
  exists c',
    scan_weak refs c m acc = Done (c', rev (filter m refs) ++ acc) /\
    (forall w v, In w refs -> c w = Some (OWeak v) ->
       c' w = Some (OWeak (if m w then cleared m v else v))) /\
    (forall p, ~ In p refs -> c' p = c p).
Proof.
  induction refs as [|w refs IH]; intros c m acc N W.
  - exists c. simpl. split; [reflexivity|]. split; [intros ? ? []|auto].
  - inversion N as [|? ? NI N']; subst.
    destruct (W w (or_introl eq_refl)) as (v & Cw & V).
    simpl scan_weak. rewrite Cw.
    assert (Step : forall c1 acc1,
      (forall p, p <> w -> c1 p = c p) -> c1 w <> None ->
      exists c', scan_weak refs c1 m acc1 = Done (c', rev (filter m refs) ++ acc1) /\
        c' w = c1 w /\
        (forall w' v', In w' refs -> c w' = Some (OWeak v') ->
           c' w' = Some (OWeak (if m w' then cleared m v' else v'))) /\
        (forall p, ~ In p (w :: refs) -> c' p = c p)).
    { intros c1 acc1 Q1 Q2.
      destruct (IH c1 m acc1) as (c' & E & K & F); auto.
      { intros w' I. assert (w' <> w) by (intros ->; auto).
        destruct (W w' (or_intror I)) as (v' & C' & V'). exists v'. rewrite Q1 by auto.
        split; auto. destruct v' as [| |q]; auto. destruct (Nat.eq_dec q w) as [->|?]; auto.
        rewrite Q1; auto. }
      exists c'. split; [exact E|]. split; [now apply F|]. split.
      - intros w' v' I C'. apply K; auto. rewrite Q1; auto. intros ->; auto.
      - intros p P. rewrite F.
        + apply Q1. intros ->. apply P. now left.
        + intros I. apply P. now right. }
    assert (Fin : forall c1 acc1 v1,
      (forall p, p <> w -> c1 p = c p) -> c1 w = Some (OWeak v1) ->
      v1 = (if m w then cleared m v else v) ->
      exists c', scan_weak refs c1 m acc1 = Done (c', rev (filter m refs) ++ acc1) /\
        (forall w' v', In w' (w :: refs) -> c w' = Some (OWeak v') ->
           c' w' = Some (OWeak (if m w' then cleared m v' else v'))) /\
        (forall p, ~ In p (w :: refs) -> c' p = c p)).
    { intros c1 acc1 v1 Q1 Q2 Q3. destruct (Step c1 acc1) as (c' & E & K1 & K2 & K3); auto.
      { congruence. }
      exists c'. split; [exact E|]. split; [|exact K3].
      intros w' v' [<-|I] C'; auto. rewrite K1, Q2. rewrite Cw in C'. injection C' as <-.
      now rewrite Q3. }
    destruct (m w) eqn:MW.
    + cbn [filter]. rewrite MW. cbn [rev]. rewrite <- app_assoc. cbn [app].
      destruct v as [|z|q]; [destruct V| |].
      * apply (Fin c (w :: acc) (VInt z)); auto.
      * cbn [markedp]. destruct (c q) eqn:CQ; [|congruence]. cbn [bind].
        destruct (m q) eqn:MQ.
        -- apply (Fin c (w :: acc) (VPtr q)); auto. simpl. now rewrite MQ.
        -- apply (Fin _ (w :: acc) Qnil).
           ++ intros p P. now apply put_other.
           ++ apply put_same.
           ++ simpl. now rewrite MQ.
    + cbn [filter]. rewrite MW. apply (Fin c acc v); auto.
Qed.

Lemma chain_sweep_ok ps : forall c m ch,
  NoDup ps ->
  exists c' m',
    chain_sweep ps c m ch = (c', m', rev (filter m ps) ++ ch) /\
    (forall p, ~ In p ps -> c' p = c p /\ m' p = m p) /\
    (forall p, In p ps -> m' p = false /\ c' p = if m p then c p else None).
Proof.
  induction ps as [|p ps IH]; intros c m ch N.
  - exists c, m. simpl. split; [reflexivity|]. split; [auto|intros ? []].
  - inversion N as [|? ? NI N']; subst. simpl.
    destruct (m p) eqn:MP.
    + destruct (IH c (clear m p) (p :: ch)) as (c' & m' & E & F & K); auto.
      exists c', m'. rewrite E. cbn [rev]. rewrite <- app_assoc. cbn [app]. split.
      { rewrite (filter_ext_in (clear m p) m); [reflexivity|].
        intros q I. apply clear_other. intros ->; auto. }
      split.
      * intros q Q. destruct (F q) as [F1 F2]; [tauto|]. split; auto. rewrite F2.
        apply clear_other. intros ->. tauto.
      * intros q [<-|I].
        -- destruct (F p NI) as [F1 F2]. rewrite F1, F2, MP, clear_same. auto.
        -- destruct (K q I) as [K1 K2]. split; auto. rewrite K2, clear_other; auto.
           intros ->; auto.
    + destruct (IH (put c p None) m ch) as (c' & m' & E & F & K); auto.
      exists c', m'. split; [exact E|]. split.
      * intros q Q. destruct (F q) as [F1 F2]; [tauto|]. split; auto. rewrite F1.
        apply put_other. intros ->. tauto.
      * intros q [<-|I].
        -- destruct (F p NI) as [F1 F2]. rewrite F1, F2, MP, put_same. auto.
        -- destruct (K q I) as [K1 K2]. split; auto. rewrite K2, put_other; auto.
           intros ->; auto.
Qed.

Lemma free_at_frame c c' v ks :
  (forall k, In k ks -> c' k = c k) -> free_at c v ks -> free_at c' v ks.
Proof.
  intros H L. induction L.
  - constructor.
  - econstructor.
    + rewrite H; [eassumption | now left].
    + apply IHL. intros k' I. apply H. now right.
Qed.

Lemma cons_sweep_ok ps : forall c m fr fl used,
  NoDup ps -> (forall p, In p ps -> exists a d, c p = Some (OCons a d)) ->
  free_at c fr fl -> (forall p, In p fl -> ~ In p ps) ->
  exists c' m' fr',
    cons_sweep ps c m fr used = (c', m', fr', used + length (filter m ps)) /\
    free_at c' fr' (rev (filter (fun p => negb (m p)) ps) ++ fl) /\
    (forall p, ~ In p ps -> c' p = c p /\ m' p = m p) /\
    (forall p, In p ps -> m' p = false /\ (m p = true -> c' p = c p) /\
       exists a d, c' p = Some (OCons a d)).
Proof.
  induction ps as [|p ps IH]; intros c m fr fl used N C Fl Dj.
  - exists c, m, fr. simpl. rewrite Nat.add_0_r. split; [reflexivity|].
    split; [exact Fl|]. split; [auto|intros ? []].
  - inversion N as [|? ? NI N']; subst. simpl.
    destruct (C p (or_introl eq_refl)) as (a & d & Cp).
    destruct (m p) eqn:MP.
    + destruct (IH c (clear m p) fr fl (S used)) as (c' & m' & fr' & E & Fl' & F & K); auto.
      { intros q I. apply C. now right. }
      { intros q I J. apply (Dj q I). now right. }
      assert (X : forall q, In q ps -> clear m p q = m q).
      { intros q I. apply clear_other. intros ->; auto. }
      exists c', m', fr'. rewrite E. split.
      { f_equal. rewrite (filter_ext_in _ _ _ X). simpl. lia. }
      split.
      { simpl. rewrite (filter_ext_in (fun q => negb (m q)) (fun q => negb (clear m p q))); auto.
        intros q I. now rewrite X. }
      split.
      * intros q Q. destruct (F q) as [F1 F2]; [tauto|]. split; auto. rewrite F2.
        apply clear_other. intros ->. tauto.
      * intros q [<-|I].
        -- destruct (F p NI) as [F1 F2]. rewrite F1, F2, clear_same. eauto.
        -- destruct (K q I) as (K1 & K2 & K3). split; [|split]; auto.
           intros M. apply K2. rewrite X; auto.
    + rewrite Cp.
      destruct (IH (put c p (Some (OCons a fr))) m (VPtr p) (p :: fl) used)
        as (c' & m' & fr' & E & Fl' & F & K); auto.
      { intros q I. rewrite put_other; [apply C; now right|]. intros ->; auto. }
      { econstructor; [apply put_same|]. apply free_at_frame with c; auto.
        intros k I. apply put_other. intros ->. apply (Dj p I). now left. }
      { intros q [<-|I]; auto. intros J. apply (Dj q I). now right. }
      exists c', m', fr'. rewrite E. split; [reflexivity|]. split.
      { simpl. rewrite <- app_assoc. exact Fl'. }
      split.
      * intros q Q. destruct (F q) as [F1 F2]; [tauto|]. split; auto. rewrite F1.
        apply put_other. intros ->. tauto.
      * intros q [<-|I].
        -- destruct (F p NI) as [F1 F2]. rewrite F1, F2, MP, put_same.
           split; [auto|]. split; [discriminate|eauto].
        -- destruct (K q I) as (K1 & K2 & K3). split; [|split]; auto.
           intros M. rewrite K2; auto. apply put_other. intros ->; auto.
Qed.
