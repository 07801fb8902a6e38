(** Proofs for Gaol_Props. *)
From Coq Require Import List ZArith Bool Lia PeanoNat.
Import ListNotations.
From Verif Require Import Gaol_Model Gaol_Spec.

Lemma upd_same {A} (f : nat -> A) k a : upd f k a k = a.
Proof. unfold upd. rewrite Nat.eqb_refl. reflexivity. Qed.
Lemma upd_other {A} (f : nat -> A) k a j : j <> k -> upd f k a j = f j.
Proof. intros N. unfold upd. destruct (Nat.eqb_spec j k); [contradiction|reflexivity]. Qed.
Lemma existsb_in x l : existsb (Nat.eqb x) l = true <-> In x l.
Proof.
  rewrite existsb_exists. split; [intros (y & I & E); apply Nat.eqb_eq in E; subst; exact I|intros I; exists x; split; [exact I|apply Nat.eqb_refl]].
Qed.
Lemma search_outside st i x : outside x i st <-> search st i x = Unlisted.
Proof.
  unfold outside, search. split.
  - intros (l & -> & N). destruct (existsb (Nat.eqb x) l) eqn:E; [apply existsb_in in E; contradiction|reflexivity].
  - destruct (env st i) as [|l]; [discriminate|]. destruct (existsb (Nat.eqb x) l) eqn:E; [discriminate|]. intros _. exists l. split; [reflexivity|]. intros I. apply existsb_in in I. congruence.
Qed.

Section Proofs.
  Variable imports : id -> sym -> option Z.
  Variable set_binds : id -> bool.
  Variable user : option id.
  Variable autoload : Z -> bool.
  Notation step := (step imports set_binds user autoload).
  Notation run := (run imports set_binds user autoload).
  Notation defvar := (defvar imports set_binds user autoload).
  Notation do_set := (do_set set_binds).

  Definition subject (o : op) : sym :=
    match o with
    | Defvar x _ | Symbol_value x | Default_value x | Set_ x _ | Set_default x _ | Makunbound x | Boundp x | Default_boundp x
    | Setplist x _ | Put x _ _ | Symbol_plist x | Get x _ | Make_variable_special x | Special_variable_p x => x
    end.

  (** * Operations on other variables *)
  Definition kept (x : sym) (st st' : state) : Prop :=
    same_variable x st st' /\ (forall i, outside x i st -> outside x i st') /\ map fst (bound st') = map fst (bound st) /\
    (forall i, env st i = All <-> env st' i = All).
  Lemma kept_refl x st : kept x st st.
  Proof. repeat split; auto. Qed.
  Lemma kept_trans x a b c : kept x a b -> kept x b c -> kept x a c.
  Proof.
    intros ((A1 & A2 & A3 & A4) & A5 & A6 & A7) ((B1 & B2 & B3 & B4) & B5 & B6 & B7). repeat split; try congruence; auto; intros H.
    - apply B7, A7, H.
    - apply A7, B7, H.
  Qed.
  Lemma map_set_binding b y v : map fst (set_binding b y v) = map fst b.
  Proof. induction b as [|[z w] b IH]; [reflexivity|]. cbn. destruct (Nat.eqb z y); cbn; [reflexivity|rewrite IH; reflexivity]. Qed.
  Lemma filter_set_binding b x y v : y <> x -> filter (fun b => Nat.eqb (fst b) x) (set_binding b y v) = filter (fun b => Nat.eqb (fst b) x) b.
  Proof.
    intros N. induction b as [|[z w] b IH]; [reflexivity|]. cbn [set_binding]. destruct (Nat.eqb_spec z y) as [->|NZ]; cbn [filter fst].
    - destruct (Nat.eqb_spec y x); [contradiction|reflexivity].
    - rewrite IH. reflexivity.
  Qed.
  Lemma kept_set_special x y st v : y <> x -> kept x st (set_special st y v).
  Proof. intros N. repeat split; auto. cbn. apply upd_other. auto. Qed.
  Lemma kept_set_flag x y st f : y <> x -> kept x st (set_flag st y f).
  Proof. intros N. repeat split; auto. cbn. apply upd_other. auto. Qed.
  Lemma kept_set_own x st i y v : kept x st (set_own st i y v).
  Proof. repeat split; auto. Qed.
  Lemma kept_set_plist x y st l : y <> x -> kept x st (set_plist st y l).
  Proof. intros N. repeat split; auto. cbn. apply upd_other. auto. Qed.
  Lemma kept_set_value x y st v : y <> x -> kept x st (set_special_value st y v).
  Proof.
    intros N. unfold set_special_value. destruct (binding (bound st) y); [|apply kept_set_special; exact N]. repeat split; auto; cbn.
    - apply filter_set_binding. exact N.
    - apply map_set_binding.
  Qed.
  Lemma kept_set_env x y st i l : y <> x -> env st i = Only l -> kept x st (set_env st i (Only (y :: l))).
  Proof.
    intros N E. split; [repeat split; reflexivity|]. split; [|split; [reflexivity|]].
    - intros j (l' & El & Nl). unfold outside. cbn. unfold upd. destruct (Nat.eqb_spec j i) as [->|]; [|exists l'; auto]. exists (y :: l). split; [reflexivity|]. intros [H|H]; [congruence|]. rewrite E in El. injection El as <-. auto.
    - intros j. cbn. unfold upd. destruct (Nat.eqb_spec j i) as [->|]; [|reflexivity]. rewrite E. split; discriminate.
  Qed.
  Lemma kept_structure_set x st i y v st' : structure_set set_binds st i y v = Some st' -> kept x st st'.
  Proof.
    unfold structure_set. destruct v; [|intros H; injection H as <-; apply kept_set_own]. destruct (set_binds i); [intros H; injection H as <-; apply kept_set_own|].
    destruct (own st i y); [|discriminate]. intros H; injection H as <-; apply kept_set_own.
  Qed.
  Lemma kept_do_set x st i y v st' : y <> x -> do_set st i y v = Some st' -> kept x st st'.
  Proof.
    intros N. unfold Gaol_Model.do_set. destruct (special (flag st y)); [|apply kept_structure_set].
    destruct (search st i y); [| |discriminate]; [|destruct (weak_mod (flag st y)); [discriminate|]]; intros H; injection H as <-; apply kept_set_value; exact N.
  Qed.
  Lemma kept_initial x st y w st' : get_initial imports user st y = Some (w, st') -> kept x st st'.
  Proof. unfold get_initial. destruct user as [u|]; [|discriminate]. destruct (structure_ref imports st u y); [|discriminate]. intros H. injection H as _ <-. apply kept_set_own. Qed.
  Lemma if_kept (c : bool) x st y v : y <> x -> kept x st (if c then set_special st y v else st).
  Proof. destruct c; [apply kept_set_special|intros; apply kept_refl]. Qed.
  Lemma kept_defvar x st i y v : y <> x -> kept x st (fst (defvar st i y v)).
  Proof.
    intros N. unfold Gaol_Model.defvar.
    set (r := if default_boundp imports st i y then _ else _). assert (R : kept x st (fst r)).
    { unfold r. destruct (default_boundp imports st i y); [|apply kept_refl]. destruct (symbol_value imports st i y) as [w|]; [|apply kept_refl]. destruct (autoload w); [|apply kept_refl]. cbn [fst].
      destruct (do_set st i y None) eqn:D; [apply (kept_do_set x st i y None); assumption|apply kept_refl]. }
    destruct r as [s tmp]. cbn [fst] in R. apply (kept_trans x st s); [exact R|]. clear R.
    destruct (match search s i y with Unlisted => _ | _ => _ end); [apply kept_refl|].
    set (q := if special (flag s y) then _ else _). assert (Q : kept x s (fst (fst q))).
    { unfold q. destruct (special (flag s y)); [apply kept_refl|]. destruct (get_initial imports user s y) as [[w s']|] eqn:G; [|apply kept_refl]. cbn. exact (kept_initial x s y w s' G). }
    assert (QE : env (fst (fst q)) i = env s i).
    { unfold q. destruct (special (flag s y)); [reflexivity|]. unfold get_initial. destruct user as [u|]; [|reflexivity]. destruct (structure_ref imports s u y); reflexivity. }
    destruct q as [[s2 v2] tmp2]. cbn [fst] in Q, QE. apply (kept_trans x s s2); [exact Q|].
    set (c := (negb tmp2 || _)%bool). assert (C : kept x s2 (if c then set_special s2 y (Some v2) else s2)) by (apply if_kept; exact N).
    set (s3 := if c then set_special s2 y (Some v2) else s2) in *. assert (E3 : env s3 i = env s i) by (unfold s3; destruct c; exact QE).
    apply (kept_trans x s2 s3); [exact C|]. destruct (search s i y) eqn:SE.
    - apply kept_set_flag. exact N.
    - apply kept_set_flag. exact N.
    - cbn [fst]. eapply kept_trans; [apply (kept_set_flag x y s3); exact N|]. unfold search in SE. destruct (env s i) as [|l]; [discriminate|].
      cbn [env set_flag]. rewrite E3. apply kept_set_env; [exact N|cbn; exact E3].
  Qed.
  Lemma kept_if_listed x st i y r : kept x st (fst r) -> kept x st (fst (if_listed st i y r)).
  Proof. intros K. unfold if_listed. destruct (search st i y); [exact K|exact K|apply kept_refl]. Qed.
  Lemma elsewhere x st i o : subject o <> x -> kept x st (fst (step st i o)).
  Proof.
    intros N. destruct o as [y v|y|y|y v|y v|y|y|y|y l|y p v|y|y p|y|y]; cbn [subject Gaol_Model.step] in *; try apply kept_refl; try (apply kept_if_listed; first [apply kept_refl|apply kept_set_plist; exact N]).
    - apply kept_defvar. exact N.
    - unfold or_error. destruct (do_set st i y (Some v)) eqn:D; [exact (kept_do_set x st i y _ _ N D)|apply kept_refl].
    - unfold or_error, set_default. destruct (special (flag st y)) eqn:SP.
      + destruct (search st i y); [| |apply kept_refl]; [|destruct (weak_mod (flag st y)); [apply kept_refl|]]; apply kept_set_value; exact N.
      + destruct (structure_set set_binds st i y (Some v)) eqn:D; [exact (kept_structure_set x st i y _ _ D)|apply kept_refl].
    - unfold or_error. destruct (do_set st i y None) eqn:D; [exact (kept_do_set x st i y _ _ N D)|apply kept_refl].
    - unfold make_special. destruct (search st i y); try apply kept_refl.
      all: destruct (special (flag st y)); [apply kept_set_flag; exact N|]; destruct (get_initial imports user st y) as [[w s']|] eqn:G; [|apply kept_set_flag; exact N];
        apply (kept_trans x st s' _ (kept_initial x st y w s' G)); apply (kept_trans x s' _ _ (kept_set_special x y s' (Some w) N)); apply kept_set_flag; exact N.
  Qed.

  (** * Operations on a trusted variable from outside *)
  Definition refused (o : op) (st : state) : answer :=
    match o with
    | Boundp _ => Truth false
    | Default_boundp x => Truth (is_some (special_value st x))
    | Get x p => Property (get_in (plist st x) p)
    | Special_variable_p _ => Truth true
    | _ => Error
    end.
  Lemma at_x st i o : trusted (subject o) st -> outside (subject o) i st -> step st i o = (st, refused o st).
  Proof.
    intros (T1 & T2 & T3) O. apply search_outside in O. destruct o as [y v|y|y|y v|y v|y|y|y|y l|y p v|y|y p|y|y]; cbn [subject Gaol_Model.step refused] in *;
      unfold Gaol_Model.defvar, symbol_value, default_value, Gaol_Model.do_set, set_default, or_void, or_error, if_listed, make_special, default_boundp; rewrite ?T1, ?O; try reflexivity.
    destruct (is_some (special_value st y)); cbn iota; rewrite O, T2, T3; reflexivity.
  Qed.

  (** * Programs *)
  Lemma bindings_cons x y v st : y <> x -> bindings_of x (set_bound st ((y, v) :: bound st)) = bindings_of x st.
  Proof. intros N. unfold bindings_of. cbn [bound set_bound filter fst]. destruct (Nat.eqb_spec y x); [contradiction|reflexivity]. Qed.
  Lemma tl_kept x y v st s : kept x (set_bound st ((y, v) :: bound st)) s -> y <> x -> kept x st (set_bound s (tl (bound s))).
  Proof.
    intros ((A1 & A2 & A3 & A4) & A5 & A6 & A7) N. unfold kept, same_variable, bindings_of in *. cbn [bound set_bound flag specials plist env filter fst map] in *.
    destruct (bound s) as [|[z w] b] eqn:B; [discriminate|]. cbn [map fst tl filter] in *. injection A6 as -> A6. destruct (Nat.eqb_spec y x); [contradiction|].
    repeat split; auto; try (intros H; apply A7, H).
  Qed.
  Lemma integrity x (ok : id -> Prop) p : forall i st, trusted x st -> ok i -> (forall j, ok j -> outside x j st) -> confined ok p -> kept x st (fst (run i st p)).
  Proof.
    induction p as [a|o k IH|y v body IHb k IH|j body IHb k IH]; intros i st T I O C; cbn [Gaol_Model.run].
    - apply kept_refl.
    - cbn [confined] in C. assert (K : kept x st (fst (step st i o))).
      { destruct (Nat.eq_dec (subject o) x) as [E|N]; [|apply elsewhere; exact N]. subst x. rewrite at_x by (auto using O). apply kept_refl. }
      destruct (step st i o) as [s a]. cbn [fst] in K. apply (kept_trans x st s); [exact K|]. destruct K as ((K1 & _) & K2 & _ & _). apply IH; auto. unfold trusted in *. rewrite K1. exact T.
    - destruct C as [Cb Ck]. destruct (special (flag st y)) eqn:SP.
      + destruct (search st i y) eqn:SE; [| |apply IH; auto].
        all: assert (N : y <> x) by (intros ->; assert (OO := O i I); apply search_outside in OO; congruence).
        all: assert (K := IHb i (set_bound st ((y, Some v) :: bound st)) T I O Cb); destruct (run i (set_bound st ((y, Some v) :: bound st)) body) as [s a]; cbn [fst] in K; apply (tl_kept x y (Some v) st s) in K; [|exact N];
          apply (kept_trans x st _ _ K); destruct K as ((K1 & _) & K2 & _ & _); apply IH; auto; unfold trusted in *; rewrite K1; exact T.
      + assert (K := IHb i st T I O Cb). destruct (run i st body) as [s a]. cbn [fst] in K. apply (kept_trans x st s); [exact K|]. destruct K as ((K1 & _) & K2 & _ & _). apply IH; auto. unfold trusted in *. rewrite K1. exact T.
    - destruct C as (Cj & Cb & Ck). assert (K := IHb j st T Cj O Cb). destruct (run j st body) as [s a]. cbn [fst] in K. apply (kept_trans x st s); [exact K|]. destruct K as ((K1 & _) & K2 & _ & _). apply IH; auto. unfold trusted in *. rewrite K1. exact T.
  Qed.

  (** * What lasts in any case *)
  Definition held (x : sym) (st st' : state) : Prop :=
    (trusted x st -> trusted x st') /\ (forall i, outside x i st -> outside x i st') /\ map fst (bound st') = map fst (bound st).
  Lemma held_refl x st : held x st st.
  Proof. repeat split; auto; apply H. Qed.
  Lemma held_trans x a b c : held x a b -> held x b c -> held x a c.
  Proof. intros (A1 & A2 & A3) (B1 & B2 & B3). split; [auto|]. split; [auto|congruence]. Qed.
  Lemma kept_held x a b : kept x a b -> held x a b.
  Proof. intros ((K1 & _) & K2 & K3 & _). split; [|auto]. unfold trusted. rewrite K1. auto. Qed.
  Lemma held_value x st y v : held x st (set_special_value st y v).
  Proof. unfold set_special_value. destruct (binding (bound st) y); split; auto; split; auto. cbn. apply map_set_binding. Qed.
  Lemma held_do_set x st i y v st' : do_set st i y v = Some st' -> held x st st'.
  Proof.
    unfold Gaol_Model.do_set. destruct (special (flag st y)); [|intros H; apply kept_held; exact (kept_structure_set x st i y v st' H)].
    destruct (search st i y); [| |discriminate]; [|destruct (weak_mod (flag st y)); [discriminate|]]; intros H; injection H as <-; apply held_value.
  Qed.
  Lemma lasting_step x st i o : trusted x st -> held x st (fst (step st i o)).
  Proof.
    intros T. destruct (Nat.eq_dec (subject o) x) as [E|N]; [|apply kept_held, elsewhere; exact N].
    destruct (search st i x) eqn:SE; [| |subst x; rewrite at_x; [apply held_refl|exact T|apply search_outside; exact SE]].
    all: destruct T as (T1 & T2 & T3).
    all: destruct o as [y v|y|y|y v|y v|y|y|y|y l|y p v|y|y p|y|y]; cbn [subject] in E; subst y; cbn [Gaol_Model.step]; try apply held_refl;
      try (unfold if_listed; rewrite SE; split; [auto|split; [auto|reflexivity]]);
      try (unfold or_error; match goal with |- context [Gaol_Model.do_set ?a ?b ?c ?d ?e] => destruct (Gaol_Model.do_set a b c d e) eqn:D; [exact (held_do_set _ _ _ _ _ _ D)|apply held_refl] end);
      try (unfold or_error, set_default; rewrite T1, SE; try (destruct (weak_mod (flag st x)); [apply held_refl|]); apply held_value);
      try (unfold make_special; rewrite SE, T1; split; [|split; [auto|reflexivity]]; intros _; unfold trusted; cbn; rewrite upd_same; cbn; rewrite T2, T3; auto).
    all: unfold Gaol_Model.defvar; set (r := if default_boundp imports st i x then _ else _); assert (R : held x st (fst r) /\ search (fst r) i x <> Unlisted).
    1,3: unfold r; destruct (default_boundp imports st i x); [|split; [apply held_refl|cbn; congruence]]; destruct (symbol_value imports st i x) as [w|]; [|split; [apply held_refl|cbn; congruence]];
         destruct (autoload w); [|split; [apply held_refl|cbn; congruence]]; cbn [fst]; destruct (do_set st i x None) as [s|] eqn:D; [|split; [apply held_refl|congruence]]; split; [exact (held_do_set x st i x None s D)|];
         unfold Gaol_Model.do_set in D; rewrite T1, SE in D; try (destruct (weak_mod (flag st x)); [discriminate|]); injection D as <-; unfold set_special_value; destruct (binding (bound st) x); unfold search in *; cbn; congruence.
    all: destruct r as [s tmp]; cbn [fst] in R; destruct R as [R NU]; assert (TS : trusted x s) by (apply R; repeat split; assumption); apply (held_trans x st s); [exact R|]; destruct TS as (S1 & S2 & S3);
         rewrite S1, S3; destruct (search s i x); [| |congruence]; cbn [fst andb].
    all: set (c := (negb tmp || _)%bool); assert (Bf : forall e : bool, (if e && false then {| special := true; weak := false; weak_mod := true; defvard := true |} else {| special := true; weak := false; weak_mod := weak_mod (flag s x); defvard := true |}) =
           {| special := true; weak := false; weak_mod := weak_mod (flag s x); defvard := true |}) by (intros []; reflexivity); rewrite Bf; clear Bf.
    all: split; [intros _; unfold trusted; cbn; rewrite upd_same; auto|]; split; [|destruct c; reflexivity]; intros j Oj; destruct c; exact Oj.
  Qed.
  Lemma lasting x p : forall i st, trusted x st -> held x st (fst (run i st p)).
  Proof.
    induction p as [a|o k IH|y v body IHb k IH|j body IHb k IH]; intros i st T; cbn [Gaol_Model.run].
    - apply held_refl.
    - assert (K := lasting_step x st i o T). destruct (step st i o) as [s a]. cbn [fst] in K. apply (held_trans x st s _ K). apply IH. apply K. exact T.
    - assert (L : held x st (fst (let '(st0, a) := run i (set_bound st ((y, Some v) :: bound st)) body in run i (set_bound st0 (tl (bound st0))) (k a)))).
      { assert (K := IHb i (set_bound st ((y, Some v) :: bound st)) T). destruct (run i (set_bound st ((y, Some v) :: bound st)) body) as [s a]. cbn [fst] in K. destruct K as (K1 & K2 & K3).
        apply (held_trans x st (set_bound s (tl (bound s)))); [|apply IH; apply K1; exact T]. split; [exact K1|]. split; [exact K2|]. cbn [bound set_bound map] in K3. destruct (bound s) as [|[z w] b]; [discriminate|]. cbn [map tl bound set_bound]. injection K3 as _ K3. exact K3. }
      destruct (special (flag st y)); [destruct (search st i y); [exact L|exact L|apply IH; exact T]|].
      assert (K := IHb i st T). destruct (run i st body) as [s a]. cbn [fst] in K. apply (held_trans x st s _ K). apply IH. apply K. exact T.
    - assert (K := IHb j st T). destruct (run j st body) as [s a]. cbn [fst] in K. apply (held_trans x st s _ K). apply IH. apply K. exact T.
  Qed.

  (** * Bindings of other structures *)
  Definition same_own (i : id) (st st' : state) : Prop := forall j y, j <> i -> user <> Some j -> own st' j y = own st j y.
  Lemma so_refl i st : same_own i st st.
  Proof. intros j y _ _. reflexivity. Qed.
  Lemma so_own st i y v : same_own i st (set_own st i y v).
  Proof. intros j z N _. cbn. rewrite upd_other by exact N. reflexivity. Qed.
  Lemma so_structure_set st i y v st' : structure_set set_binds st i y v = Some st' -> same_own i st st'.
  Proof.
    unfold structure_set. destruct v; [|intros H; injection H as <-; apply so_own]. destruct (set_binds i); [intros H; injection H as <-; apply so_own|].
    destruct (own st i y); [|discriminate]. intros H; injection H as <-; apply so_own.
  Qed.
  Lemma so_value i st y v : same_own i st (set_special_value st y v).
  Proof. unfold set_special_value. destruct (binding (bound st) y); intros j z _ _; reflexivity. Qed.
  Lemma so_do_set st i y v st' : do_set st i y v = Some st' -> same_own i st st'.
  Proof.
    unfold Gaol_Model.do_set. destruct (special (flag st y)); [|apply so_structure_set].
    destruct (search st i y); [| |discriminate]; [|destruct (weak_mod (flag st y)); [discriminate|]]; intros H; injection H as <-; apply so_value.
  Qed.
  Lemma so_initial i st y w st' : get_initial imports user st y = Some (w, st') -> same_own i st st'.
  Proof.
    unfold get_initial. destruct user as [u|] eqn:U; [|discriminate]. destruct (structure_ref imports st u y); [|discriminate]. intros H. injection H as _ <-. intros j t _ NU. cbn. rewrite upd_other by congruence. reflexivity.
  Qed.
  Lemma so_step st i o : same_own i st (fst (step st i o)).
  Proof.
    destruct o as [y v|y|y|y v|y v|y|y|y|y l|y p v|y|y p|y|y]; cbn [Gaol_Model.step]; try apply so_refl; try (unfold if_listed; destruct (search st i y); intros j z _ _; reflexivity).
    - unfold Gaol_Model.defvar. set (r := if default_boundp imports st i y then _ else _). assert (R : same_own i st (fst r)).
      { unfold r. destruct (default_boundp imports st i y); [|apply so_refl]. destruct (symbol_value imports st i y) as [w|]; [|apply so_refl]. destruct (autoload w); [|apply so_refl]. cbn [fst].
        destruct (do_set st i y None) eqn:D; [exact (so_do_set st i y _ _ D)|apply so_refl]. }
      destruct r as [s tmp]. cbn [fst] in R. destruct (match search s i y with Unlisted => _ | _ => _ end); [exact R|].
      set (q := if special (flag s y) then _ else _). assert (Q : same_own i s (fst (fst q))).
      { unfold q. destruct (special (flag s y)); [apply so_refl|]. destruct (get_initial imports user s y) as [[w s']|] eqn:G; [|apply so_refl]. cbn. exact (so_initial i s y w s' G). }
      destruct q as [[s2 v2] tmp2]. cbn [fst] in Q. set (c := (negb tmp2 || _)%bool).
      intros j z N U. rewrite <- (R j z N U), <- (Q j z N U). destruct (search s i y); destruct c; reflexivity.
    - unfold or_error. destruct (do_set st i y (Some v)) eqn:D; [exact (so_do_set st i y _ _ D)|apply so_refl].
    - unfold or_error, set_default. destruct (special (flag st y)).
      + destruct (search st i y); [| |apply so_refl]; [|destruct (weak_mod (flag st y)); [apply so_refl|]]; apply so_value.
      + destruct (structure_set set_binds st i y (Some v)) eqn:D; [exact (so_structure_set st i y _ _ D)|apply so_refl].
    - unfold or_error. destruct (do_set st i y None) eqn:D; [exact (so_do_set st i y _ _ D)|apply so_refl].
    - unfold make_special. destruct (search st i y); try apply so_refl.
      all: destruct (special (flag st y)); [intros j z _ _; reflexivity|]; destruct (get_initial imports user st y) as [[w s']|] eqn:G; [|intros j z _ _; reflexivity]; exact (so_initial i st y w s' G).
  Qed.
  Lemma modules (ok : id -> Prop) p j y : ~ ok j -> user <> Some j -> forall i st, ok i -> confined ok p -> own (fst (run i st p)) j y = own st j y.
  Proof.
    intros NO NU. induction p as [a|o k IH|z v body IHb k IH|m body IHb k IH]; intros i st I C; cbn [Gaol_Model.run].
    - reflexivity.
    - assert (K := so_step st i o j y (fun E => NO (eq_ind_r ok I E)) NU). destruct (step st i o) as [s a]. cbn [fst] in K. rewrite <- K. apply IH; [exact I|apply C].
    - destruct C as [Cb Ck]. assert (L : own (fst (let '(st0, a) := run i (set_bound st ((z, Some v) :: bound st)) body in run i (set_bound st0 (tl (bound st0))) (k a))) j y = own st j y).
      { assert (K := IHb i (set_bound st ((z, Some v) :: bound st)) I Cb). destruct (run i (set_bound st ((z, Some v) :: bound st)) body) as [s a]. cbn [fst] in K. rewrite IH by auto. exact K. }
      destruct (special (flag st z)); [destruct (search st i z); [exact L|exact L|apply IH; auto]|].
      assert (K := IHb i st I Cb). destruct (run i st body) as [s a]. cbn [fst] in K. rewrite IH by auto. exact K.
    - destruct C as (Cm & Cb & Ck). assert (K := IHb m st Cm Cb). destruct (run m st body) as [s a]. cbn [fst] in K. rewrite IH by auto. exact K.
  Qed.
End Proofs.
