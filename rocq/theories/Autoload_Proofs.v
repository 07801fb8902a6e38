From Coq Require Import List ZArith Bool Lia.
Import ListNotations.
From Verif Require Import Autoload_Model Autoload_Spec.

Section Modules.
  Variable body : nat -> list (nat * Z).
  Notation put := (fun (t : table) (d : nat * Z) => set_def t (fst d) (VDef (snd d))).

  Lemma set_def_same : forall t s v, set_def t s v s = v.
  Proof. intros t s v. unfold set_def. now rewrite Nat.eqb_refl. Qed.

  Lemma set_def_other : forall t s v x, x <> s -> set_def t s v x = t x.
  Proof. intros t s v x N. unfold set_def. destruct (Nat.eqb_spec x s); congruence. Qed.

  Lemma load_body : forall ds t s,
    (fold_left put ds t s = t s /\ forall v, ~ In (s, v) ds) \/
    exists v, In (s, v) ds /\ fold_left put ds t s = VDef v.
  Proof.
    induction ds as [|[x w] ds IH]; intros t s.
    - left. split; [reflexivity | intros v []].
    - cbn [fold_left fst snd].
      destruct (IH (set_def t x (VDef w)) s) as [[E N]|(v & I & E)].
      + destruct (Nat.eq_dec s x) as [->|D].
        * right. exists w. split; [now left|]. rewrite E. apply set_def_same.
        * left. split; [rewrite E; now apply set_def_other|].
          intros v [F|F]; [congruence | now apply (N v)].
      + right. exists v. split; [now right | exact E].
  Qed.

  Lemma run_snoc : forall ops o, run body (ops ++ [o]) = step body (run body ops) o.
  Proof. intros ops o. unfold run. now rewrite fold_left_app. Qed.

  (** ** why modules are loaded *)

  Lemma reason_snoc : forall ops o m, has_reason ops m -> has_reason (ops ++ [o]) m.
  Proof.
    intros ops o m (pre & s & post & -> & I). exists pre, s, (post ++ [o]). split; [|exact I].
    now rewrite <- app_assoc.
  Qed.

  Definition loads_inv (ops : list op) (st : state) : Prop :=
    (forall s m, defs st s = VCell m -> In (Auto s m) ops) /\
    NoDup (loaded st) /\ (forall m, In m (loaded st) -> has_reason ops m).

  Lemma NoDup_snoc : forall (l : list nat) x, NoDup l -> ~ In x l -> NoDup (l ++ [x]).
  Proof.
    intros l x N I. apply (NoDup_Add (a := x) (l := l)).
    - rewrite <- (app_nil_r l) at 1. apply Add_app.
    - split; assumption.
  Qed.

  Lemma loads_run : forall ops, loads_inv ops (fst (run body ops)).
  Proof.
    induction ops as [|o ops IH] using rev_ind.
    - split; [intros s m E; discriminate E|]. split; [constructor | intros m []].
    - rewrite run_snoc. destruct (run body ops) as [st out]. cbn [fst] in IH.
      destruct IH as (A & B & C).
      destruct o as [s m|s v|s]; cbn [step fst].
      + unfold autoload. destruct (defs st s) eqn:E; cbn [defs loaded].
        * split; [|split]; cbn [defs loaded].
          -- intros x y F. destruct (Nat.eq_dec x s) as [->|D].
             ++ rewrite set_def_same in F. injection F as <-. apply in_app_iff. right. now left.
             ++ rewrite set_def_other in F by exact D. apply in_app_iff. left. now apply A.
          -- exact B.
          -- intros y I. apply reason_snoc. now apply C.
        * split; [|split]; [|exact B|].
          -- intros x y F. apply in_app_iff. left. now apply A.
          -- intros y I. apply reason_snoc. now apply C.
        * split; [|split]; [|exact B|].
          -- intros x y F. apply in_app_iff. left. now apply A.
          -- intros y I. apply reason_snoc. now apply C.
      + split; [|split]; cbn [defs loaded]; [|exact B|].
        * intros x y F. destruct (Nat.eq_dec x s) as [->|D].
          -- rewrite set_def_same in F. discriminate F.
          -- rewrite set_def_other in F by exact D. apply in_app_iff. left. now apply A.
        * intros y I. apply reason_snoc. now apply C.
      + unfold autoload_ref. destruct (defs st s) as [|m|v] eqn:E; cbn [fst].
        * split; [|split]; [|exact B|].
          -- intros x y F. apply in_app_iff. left. now apply A.
          -- intros y I. apply reason_snoc. now apply C.
        * unfold intern_structure. destruct (in_dec Nat.eq_dec m (loaded st)) as [L|L].
          -- split; [|split]; [|exact B|].
             ++ intros x y F. apply in_app_iff. left. now apply A.
             ++ intros y I. apply reason_snoc. now apply C.
          -- split; [|split]; cbn [defs loaded].
             ++ intros x y F. apply in_app_iff. left. apply A.
                destruct (load_body (body m) (defs st) x) as [[G _]|(v & _ & G)].
                ** rewrite <- G. exact F.
                ** rewrite G in F. discriminate F.
             ++ now apply NoDup_snoc.
             ++ intros y I. apply in_app_iff in I. destruct I as [I|[<-|[]]].
                ** apply reason_snoc. now apply C.
                ** exists ops, s, []. split; [reflexivity | now apply A].
        * split; [|split]; [|exact B|].
          -- intros x y F. apply in_app_iff. left. now apply A.
          -- intros y I. apply reason_snoc. now apply C.
  Qed.

  (** ** definitions of the program stay *)

  Lemma own_kept : forall pre s v post,
    (forall w, ~ In (Define s w) post) ->
    (forall x m w, In (Auto x m) (pre ++ Define s v :: post) -> ~ In (s, w) (body m)) ->
    defs (fst (run body (pre ++ Define s v :: post))) s = VDef v.
  Proof.
    intros pre s v post. induction post as [|o post IH] using rev_ind; intros N M.
    - rewrite run_snoc. destruct (run body pre) as [st out]. cbn [step fst defs]. apply set_def_same.
    - assert (P : defs (fst (run body (pre ++ Define s v :: post))) s = VDef v).
      { apply IH.
        - intros w I. apply (N w). apply in_app_iff. now left.
        - intros x m w I. apply (M x m w).
          change (pre ++ Define s v :: post ++ [o]) with (pre ++ (Define s v :: post) ++ [o]).
          rewrite app_assoc. apply in_app_iff. now left. }
      assert (Q := loads_run (pre ++ Define s v :: post)). destruct Q as (A & _ & _).
      replace (pre ++ Define s v :: post ++ [o]) with ((pre ++ Define s v :: post) ++ [o]) in *
        by (now rewrite <- app_assoc).
      rewrite run_snoc. destruct (run body (pre ++ Define s v :: post)) as [st out].
      cbn [fst] in P, A. destruct o as [x m|x w|x]; cbn [step fst].
      + unfold autoload. destruct (defs st x) eqn:E; try exact P. cbn [defs].
        rewrite set_def_other; [exact P | congruence].
      + cbn [defs]. rewrite set_def_other; [exact P|].
        intros ->. apply (N w). apply in_app_iff. right. now left.
      + unfold autoload_ref. destruct (defs st x) as [|m|w] eqn:E; cbn [fst]; try exact P.
        unfold intern_structure. destruct (in_dec Nat.eq_dec m (loaded st)); [exact P|]. cbn [defs].
        destruct (load_body (body m) (defs st) s) as [[G _]|(w & I & _)]; [congruence|].
        exfalso. apply (M x m w); [|exact I]. apply in_app_iff. left. now apply A.
  Qed.

  (** ** what references give *)

  Definition tidy_inv (ops : list op) (st : state) : Prop :=
    (forall s m v, In m (loaded st) -> In (s, v) (body m) -> defs st s = VDef v) /\
    (forall s m, In (Auto s m) ops ->
       (exists n, defs st s = VCell n /\ ~ In n (loaded st)) \/
       (exists v, In (s, v) (body m) /\ defs st s = VDef v)) /\
    (forall s, (forall m v, ~ In (s, v) (body m)) ->
       (exists v, last_definition s ops (Some v) /\ defs st s = VDef v) \/
       (last_definition s ops None /\ defs st s = VNil)) /\
    (forall s m v w, In (s, v) (body m) -> defs st s = VDef w -> w = v).

  Lemma tidy_snoc : forall ops o, tidy body (ops ++ [o]) -> tidy body ops.
  Proof.
    intros ops o [A B C]. constructor.
    - intros s m I. apply A. apply in_app_iff. now left.
    - exact B.
    - intros s v m w I. apply (C s v m w). apply in_app_iff. now left.
  Qed.

  Lemma last_snoc : forall s ops o x, (forall v, o <> Define s v) ->
    last_definition s ops x -> last_definition s (ops ++ [o]) x.
  Proof.
    intros s ops o x N [ops' F|pre v post F].
    - constructor. intros v I. apply in_app_iff in I. destruct I as [I|[I|[]]].
      + exact (F v I).
      + exact (N v I).
    - rewrite <- app_assoc. cbn [app]. constructor. intros w I. apply in_app_iff in I.
      destruct I as [I|[I|[]]]; [exact (F w I) | exact (N w I)].
  Qed.

  (** a cell never names a module that was loaded *)
  Lemma cell_fresh : forall ops st s n, tidy body ops -> loads_inv ops st -> tidy_inv ops st ->
    defs st s = VCell n -> ~ In n (loaded st).
  Proof.
    intros ops st s n T (A & _ & _) (B & _ & _) E I.
    destruct (td_named _ _ T s n (A s n E)) as [v V].
    specialize (B s n v I V). congruence.
  Qed.

  Lemma tidy_run : forall ops, tidy body ops -> tidy_inv ops (fst (run body ops)).
  Proof.
    induction ops as [|o ops IH] using rev_ind; intros T.
    - split; [intros s m v []|]. split; [intros s m []|]. split.
      + intros s _. right. split; [constructor; intros v [] | reflexivity].
      + intros s m v w _ E. discriminate E.
    - assert (T' := tidy_snoc _ _ T). specialize (IH T'). assert (L := loads_run ops).
      rewrite run_snoc. destruct (run body ops) as [st out]. cbn [fst] in IH, L.
      assert (CF := fun s n => cell_fresh ops st s n T' L IH).
      destruct IH as (B & C & D & G). destruct L as (A & _ & _).
      assert (KD : forall x, (forall v, o <> Define x v) -> (forall m v, ~ In (x, v) (body m)) ->
        (exists v, last_definition x (ops ++ [o]) (Some v) /\ defs st x = VDef v) \/
        (last_definition x (ops ++ [o]) None /\ defs st x = VNil)).
      { intros x NO N. destruct (D x N) as [(v & P & Q)|[P Q]].
        - left. exists v. split; [now apply last_snoc | exact Q].
        - right. split; [now apply last_snoc | exact Q]. }
      destruct o as [s m|s v|s]; cbn [step fst].
      + destruct (td_named _ _ T s m) as [v0 V0]; [apply in_app_iff; right; now left|].
        unfold autoload. destruct (defs st s) as [|n|w] eqn:E.
        * split; [|split; [|split]]; cbn [defs loaded].
          -- intros x y v I V. rewrite set_def_other; [now apply (B x y v)|].
             intros ->. specialize (B s y v I V). congruence.
          -- intros x y I. destruct (Nat.eq_dec x s) as [->|N].
             ++ left. exists m. split; [apply set_def_same|].
                intros Q. specialize (B s m v0 Q V0). congruence.
             ++ rewrite set_def_other by exact N. apply in_app_iff in I.
                destruct I as [I|[I|[]]]; [now apply C | congruence].
          -- intros x N. assert (x <> s) by (intros ->; exact (N m v0 V0)).
             rewrite set_def_other by assumption. apply KD; [discriminate | exact N].
          -- intros x y v w V F. destruct (Nat.eq_dec x s) as [->|N].
             ++ rewrite set_def_same in F. discriminate F.
             ++ rewrite set_def_other in F by exact N. now apply (G x y).
        * split; [|split; [|split]]; [exact B| | |exact G].
          -- intros x y I. apply in_app_iff in I. destruct I as [I|[I|[]]]; [now apply C|].
             injection I as <- <-. left. exists n. split; [exact E | now apply CF with s].
          -- intros x N. apply KD; [discriminate | exact N].
        * split; [|split; [|split]]; [exact B| | |exact G].
          -- intros x y I. apply in_app_iff in I. destruct I as [I|[I|[]]]; [now apply C|].
             injection I as <- <-. right. exists v0. split; [exact V0|].
             rewrite E. f_equal. exact (G s m v0 w V0 E).
          -- intros x N. apply KD; [discriminate | exact N].
      + assert (NB : forall m w, ~ In (s, w) (body m)).
        { intros m w. apply (td_left _ _ T s v m w). apply in_app_iff. right. now left. }
        split; [|split; [|split]]; cbn [defs loaded].
        * intros x y w I V. rewrite set_def_other; [now apply (B x y w)|].
          intros ->. exact (NB y w V).
        * intros x y I. apply in_app_iff in I. destruct I as [I|[I|[]]]; [|discriminate I].
          rewrite set_def_other; [now apply C|].
          intros ->. destruct (td_named _ _ T' s y I) as [w W]. exact (NB y w W).
        * intros x N. destruct (Nat.eq_dec x s) as [->|NE].
          -- left. exists v. split; [|apply set_def_same]. constructor. intros w [].
          -- rewrite set_def_other by exact NE. apply KD; [congruence | exact N].
        * intros x y u w V F. rewrite set_def_other in F; [now apply (G x y)|].
          intros ->. exact (NB y u V).
      + assert (CR : forall x y, In (Auto x y) (ops ++ [Ref s]) -> In (Auto x y) ops).
        { intros x y I. apply in_app_iff in I. destruct I as [I|[I|[]]]; [exact I | discriminate I]. }
        assert (ST : tidy_inv (ops ++ [Ref s]) st).
        { split; [|split; [|split]]; [exact B| | |exact G].
          - intros x y I. apply C. now apply CR.
          - intros x N. apply KD; [discriminate | exact N]. }
        unfold autoload_ref. destruct (defs st s) as [|m|v] eqn:E; cbn [fst]; try exact ST.
        unfold intern_structure. destruct (in_dec Nat.eq_dec m (loaded st)) as [L|L]; [exact ST|].
        split; [|split; [|split]]; cbn [defs loaded].
        * intros x y v I V.
          destruct (load_body (body m) (defs st) x) as [[P N]|(w & W & P)]; rewrite P.
          -- apply in_app_iff in I. destruct I as [I|[<-|[]]]; [now apply (B x y v)|].
             exfalso. exact (N v V).
          -- f_equal. exact (td_agree _ _ T m y x w v W V).
        * intros x y I. apply CR in I.
          destruct (load_body (body m) (defs st) x) as [[P N]|(w & W & P)]; rewrite P.
          -- destruct (C x y I) as [(n & Q & R)|Q]; [left; exists n; split; [exact Q|] | now right].
             intros F. apply in_app_iff in F. destruct F as [F|[<-|[]]]; [exact (R F)|].
             destruct (td_named _ _ T' x m (A x m Q)) as [w W]. exact (N w W).
          -- right. destruct (td_named _ _ T' x y I) as [u U]. exists u. split; [exact U|].
             f_equal. exact (td_agree _ _ T m y x w u W U).
        * intros x N. destruct (load_body (body m) (defs st) x) as [[P _]|(w & W & P)].
          -- rewrite P. apply KD; [discriminate | exact N].
          -- exfalso. exact (N m w W).
        * intros x y u w V F.
          destruct (load_body (body m) (defs st) x) as [[P _]|(k & W & P)]; rewrite P in F.
          -- now apply (G x y).
          -- injection F as <-. exact (td_agree _ _ T m y x k u W V).
  Qed.

  Lemma ref_gives : forall ops s, tidy body ops ->
    (exists m, In (Auto s m) ops) \/ (forall m v, ~ In (s, v) (body m)) ->
    must_give body s ops (snd (autoload_ref body (fst (run body ops)) s)).
  Proof.
    intros ops s T H. assert (I := tidy_run ops T). assert (L := loads_run ops).
    destruct (run body ops) as [st out]. cbn [fst] in *.
    destruct I as (B & C & D & G). destruct L as (A & _ & _). unfold autoload_ref.
    destruct H as [[m M]|N].
    - destruct (C s m M) as [(n & Q & R)|(v & V & Q)]; rewrite Q; cbn [snd].
      + unfold intern_structure. destruct (in_dec Nat.eq_dec n (loaded st)) as [X|X]; [tauto|].
        cbn [defs]. destruct (td_named _ _ T s n (A s n Q)) as [u U].
        destruct (load_body (body n) (defs st) s) as [[_ F]|(w & W & P)].
        * exfalso. exact (F u U).
        * rewrite P. exact (MModule body s ops n w (A s n Q) W).
      + exact (MModule body s ops m v M V).
    - assert (NA : forall m, ~ In (Auto s m) ops).
      { intros m I. destruct (td_named _ _ T s m I) as [v V]. exact (N m v V). }
      destruct (D s N) as [(v & P & Q)|[P Q]]; rewrite Q; cbn [snd].
      + now apply MOwn.
      + now apply MNone.
  Qed.
End Modules.
