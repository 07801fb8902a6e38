(** Proofs for Realpath_Props. *)
From Coq Require Import ZArith List Bool Lia ZifyBool.
Import ListNotations.
From Verif Require Import Realpath_Model Realpath_Spec.
Open Scope Z_scope.

Lemma str_eqb_ok a b : str_eqb a b = true <-> a = b.
Proof. unfold str_eqb. destruct (list_eq_dec Z.eq_dec a b); split; congruence. Qed.
Lemma str_eqb_no a b : str_eqb a b = false <-> a <> b.
Proof. unfold str_eqb. destruct (list_eq_dec Z.eq_dec a b); split; congruence. Qed.

(** * Splitting *)
Definition slashy (e : str) : Prop := e = [] \/ exists e', e = 47 :: e'.
Lemma split_run n : ~ In 47 n -> forall s acc, split (n ++ s) acc = split s (rev n ++ acc).
Proof.
  induction n as [|c n IH]; intros N s acc; [reflexivity|]. cbn [app split]. destruct (Z.eqb_spec c slash) as [->|]; [destruct N; left; reflexivity|].
  rewrite IH by (intros I; apply N; right; exact I). cbn [rev]. rewrite <- app_assoc. reflexivity.
Qed.
Lemma names_slash s : names (47 :: s) = names s.
Proof. reflexivity. Qed.
Lemma names_run n e : n <> [] -> ~ In 47 n -> slashy e -> names (n ++ e) = n :: names e.
Proof.
  intros NE N [->|(e' & ->)]; unfold names; rewrite split_run by exact N; rewrite app_nil_r; cbn [split].
  - destruct (rev n) eqn:R; [exfalso; apply NE; rewrite <- (rev_involutive n), R; reflexivity|]. rewrite <- R, rev_involutive. reflexivity.
  - change (47 =? slash) with true. cbn iota. destruct (rev n) eqn:R; [exfalso; apply NE; rewrite <- (rev_involutive n), R; reflexivity|]. rewrite <- R, rev_involutive. reflexivity.
Qed.
Lemma component_ok s c e : component s = (c, e) -> s = c ++ e /\ ~ In 47 c /\ slashy e.
Proof.
  revert c e. induction s as [|x s IH]; intros c e H; cbn [component] in H.
  - injection H as <- <-. split; [reflexivity|]. split; [intros []|left; reflexivity].
  - destruct (Z.eqb_spec x slash) as [->|N].
    + injection H as <- <-. split; [reflexivity|]. split; [intros []|right; exists s; reflexivity].
    + destruct (component s) as [a b]. injection H as <- <-. destruct (IH a b eq_refl) as (-> & A & B). split; [reflexivity|]. split; [|exact B]. intros [E|I]; [exact (N E)|exact (A I)].
Qed.
Lemma skip_names s : names (skip_slashes s) = names s.
Proof. induction s as [|c s IH]; [reflexivity|]. cbn [skip_slashes]. destruct (Z.eqb_spec c slash) as [->|]; [rewrite IH; reflexivity|reflexivity]. Qed.
Lemma skip_head s : match skip_slashes s with c :: _ => c <> 47 | [] => True end.
Proof. induction s as [|c s IH]; [exact I|]. cbn [skip_slashes]. destruct (Z.eqb_spec c slash) as [->|N]; [exact IH|exact N]. Qed.
Lemma skip_len s : (length (skip_slashes s) <= length s)%nat.
Proof. induction s as [|c s IH]; [reflexivity|]. cbn [skip_slashes]. destruct (c =? slash); cbn [length]; lia. Qed.
Lemma next_ok s c e : component (skip_slashes s) = (c, e) ->
  (c = [] /\ names s = []) \/ (c <> [] /\ ~ In 47 c /\ slashy e /\ names s = c :: names e /\ (length e < length s)%nat).
Proof.
  intros H. destruct (component_ok _ _ _ H) as (E & N & SL). rewrite <- skip_names. assert (L := skip_len s). assert (HD := skip_head s). rewrite E in *. destruct c as [|x c].
  - left. split; [reflexivity|]. cbn [app] in *. destruct SL as [->|(e' & ->)]; [reflexivity|]. destruct HD. reflexivity.
  - right. split; [discriminate|]. split; [exact N|]. split; [exact SL|]. split; [apply names_run; [discriminate|exact N|exact SL]|]. cbn [app length] in L. rewrite app_length in L. lia.
Qed.
Lemma split_acc_app s : forall acc e, slashy e -> split (s ++ e) acc = split s acc ++ names e.
Proof.
  induction s as [|c s IH]; intros acc e SL; cbn [app split].
  - destruct SL as [->|(e' & ->)]; [cbn [split]; destruct acc; reflexivity|]. cbn [split]. change (47 =? slash) with true. cbn iota. destruct acc; reflexivity.
  - destruct (c =? slash); [|apply IH; exact SL]. destruct acc; [apply IH; exact SL|]. cbn [app]. f_equal. apply IH. exact SL.
Qed.
Lemma names_app s e : slashy e -> names (s ++ e) = names s ++ names e.
Proof. intros. apply split_acc_app. assumption. Qed.
Lemma slashy_written p : slashy (written p).
Proof. destruct p as [|n p]; [left; reflexivity|right; eexists; reflexivity]. Qed.
Lemma names_written p : Forall ordinary p -> names (written p) = p.
Proof.
  induction 1 as [|n p (NE & N & _) _ IH]; [reflexivity|]. cbn [written]. rewrite names_slash, names_run by (assumption || apply slashy_written). rewrite IH. reflexivity.
Qed.
Definition nodot (n : str) : bool := negb (str_eqb n dot).
Definition names0 (s : str) : list str := filter nodot (names s).
Lemma parts_names s l : parts s l -> filter nodot (names s) = filter nodot l.
Proof.
  induction 1 as [|s l _ IH|n NE N|n s NE N _ IH|n s l NE N _ IH _].
  - reflexivity.
  - rewrite names_slash. exact IH.
  - rewrite <- (app_nil_r n) at 1. rewrite names_run by (assumption || (left; reflexivity)). reflexivity.
  - rewrite names_run by (assumption || (right; eexists; reflexivity)). rewrite names_slash. cbn [filter]. cbn [filter] in IH. rewrite IH. reflexivity.
  - rewrite names_run by (assumption || (right; eexists; reflexivity)). rewrite names_slash. cbn [filter]. rewrite IH. reflexivity.
Qed.
Lemma parts_parts s l : parts s l -> Forall (fun n => n <> [] /\ ~ In 47 n) l.
Proof.
  induction 1; auto; repeat constructor; auto; try discriminate. intros [E|[]]. discriminate.
Qed.

(** * What rpath holds *)
Lemma written_app a b : written (a ++ b) = written a ++ written b.
Proof. induction a as [|n a IH]; [reflexivity|]. cbn. rewrite IH, app_assoc. reflexivity. Qed.
Definition reps (rp : str) (d : list str) : Prop := rev rp = written d ++ [47] \/ (d <> [] /\ rev rp = written d).
Lemma rev_eq {A} (a b : list A) : rev a = b -> a = rev b.
Proof. intros <-. symmetry. apply rev_involutive. Qed.
Lemma to_slash_run n w : ~ In 47 n -> to_slash (n ++ 47 :: w) = 47 :: w.
Proof.
  induction n as [|c n IH]; intros N; [reflexivity|]. cbn [app to_slash]. destruct (Z.eqb_spec c slash) as [->|]; [destruct N; left; reflexivity|].
  apply IH. intros I. apply N. right. exact I.
Qed.
Lemma back_full d n : ordinary n -> back (rev (written (d ++ [n]))) = 47 :: rev (written d).
Proof.
  intros (NE & N & _). rewrite written_app, rev_app_distr. cbn [written rev]. rewrite app_nil_r, <- app_assoc. cbn [app].
  destruct (rev n) as [|c r] eqn:R; [exfalso; apply NE; rewrite <- (rev_involutive n), R; reflexivity|]. cbn [app].
  assert (X : back (c :: r ++ 47 :: rev (written d)) = to_slash (r ++ 47 :: rev (written d))) by (destruct r; reflexivity). rewrite X.
  apply to_slash_run. intros I. apply N. apply in_rev. rewrite R. right. exact I.
Qed.
Lemma snoc_case {A} (d : list A) : d = [] \/ exists d' n, d = d' ++ [n].
Proof. destruct d as [|x d]; [left; reflexivity|right]. destruct (exists_last (l := x :: d)) as (a & b & E); [discriminate|]. exists a, b. exact E. Qed.
Lemma back_ok rp d : Forall ordinary d -> reps rp d -> reps (back rp) (removelast d).
Proof.
  intros O R. destruct (snoc_case d) as [->|(d' & n & ->)].
  - destruct R as [R|[N _]]; [|congruence]. apply rev_eq in R. cbn in R. subst rp. left. reflexivity.
  - rewrite removelast_last. apply Forall_app in O as [_ O]. inversion O as [|? ? On _]; subst. left. destruct R as [R|[_ R]]; apply rev_eq in R; subst rp.
    + rewrite rev_app_distr. cbn [rev app]. assert (X : forall w, w <> [] -> back (47 :: w) = to_slash w) by (intros [|]; [congruence|reflexivity]).
      destruct On as (NE & N & _). rewrite written_app, rev_app_distr. cbn [written rev]. rewrite app_nil_r, <- app_assoc. cbn [app].
      rewrite X by (destruct (rev n); discriminate). rewrite to_slash_run by (rewrite <- in_rev; exact N). cbn [rev]. rewrite rev_involutive. reflexivity.
    + rewrite back_full by exact On. cbn [rev]. rewrite rev_involutive. reflexivity.
Qed.
Definition with_slash (rp : str) : str := match rp with c :: _ => if c =? slash then rp else slash :: rp | [] => [slash] end.
Lemma with_slash_ok rp d : Forall ordinary d -> reps rp d -> with_slash rp = 47 :: rev (written d).
Proof.
  intros O [R|[NE R]]; apply rev_eq in R; subst rp; [rewrite rev_app_distr; reflexivity|].
  destruct (snoc_case d) as [->|(d' & n & ->)]; [congruence|]. apply Forall_app in O as [_ O]. inversion O as [|? ? (Nn & N & _) _]; subst.
  rewrite written_app, rev_app_distr. cbn [written rev]. rewrite app_nil_r. destruct (rev n) as [|c r] eqn:E; [exfalso; apply Nn; rewrite <- (rev_involutive n), E; reflexivity|].
  cbn [app with_slash]. destruct (Z.eqb_spec c slash) as [->|]; [|reflexivity]. exfalso. apply N. apply in_rev. rewrite E. left. reflexivity.
Qed.
Lemma rp_name (d : list str) (n : str) : rev n ++ 47 :: rev (written d) = rev (written (d ++ [n])).
Proof. rewrite written_app, rev_app_distr. cbn [written rev]. rewrite app_nil_r, <- app_assoc. reflexivity. Qed.
Lemma finish_ok rp d : Forall ordinary d -> reps rp d -> finish rp = Done (path_text d).
Proof.
  intros O R. unfold finish. f_equal. destruct R as [R|[NE R]]; apply rev_eq in R; subst rp.
  - rewrite rev_app_distr. cbn [rev app]. destruct d as [|n d]; [reflexivity|]. destruct (rev (written (n :: d))) eqn:E.
    + exfalso. assert (X := f_equal (@length Z) E). rewrite rev_length in X. cbn in X. lia.
    + change (47 =? slash) with true. cbn iota. rewrite <- E, rev_involutive. reflexivity.
  - destruct (snoc_case d) as [->|(d' & n & ->)]; [congruence|]. apply Forall_app in O as [_ O]. inversion O as [|? ? (Nn & N & _) _]; subst.
    assert (H : match rev (written (d' ++ [n])) with c :: (_ :: _) as rp' => if c =? slash then rp' else rev (written (d' ++ [n])) | _ => rev (written (d' ++ [n])) end = rev (written (d' ++ [n]))).
    { destruct (rev (written (d' ++ [n]))) as [|c [|c' r]] eqn:E; try reflexivity. destruct (Z.eqb_spec c slash) as [->|]; [|reflexivity]. exfalso.
      rewrite written_app, rev_app_distr in E. cbn [written rev] in E. rewrite app_nil_r in E. destruct (rev n) as [|x y] eqn:En; [apply Nn; rewrite <- (rev_involutive n), En; reflexivity|].
      cbn [app] in E. injection E as -> _. apply N. apply in_rev. rewrite En. left. reflexivity. }
    rewrite H, rev_involutive. destruct (d' ++ [n]) eqn:E; [destruct d'; discriminate|reflexivity].
Qed.

(** * The kernel *)
Definition dirs (fs : filesys) (p : list str) : Prop := forall a b, p = a ++ b -> b <> [] -> fs a = Some Directory.
Lemma at_names_ok fs rest : forall before x, at_names fs before rest = Some x <-> (forall a b, rest = a ++ b -> b <> [] -> fs (before ++ a) = Some Directory) /\ fs (before ++ rest) = Some x.
Proof.
  induction rest as [|n rest IH]; intros before x; cbn [at_names].
  - rewrite app_nil_r. split; [intros H; split; [|exact H]; intros a b E NB; destruct a; destruct b; try discriminate; congruence|intros [_ H]; exact H].
  - destruct (fs before) as [[]|] eqn:E.
    + rewrite IH. rewrite <- app_assoc. cbn [app]. split.
      * intros [H1 H2]. split; [|exact H2]. intros a b Eq NB. destruct a as [|y a]; [rewrite app_nil_r; exact E|]. injection Eq as <- Eq. rewrite <- (H1 a b Eq NB). f_equal. rewrite <- app_assoc. reflexivity.
      * intros [H1 H2]. split; [|exact H2]. intros a b Eq NB. rewrite <- app_assoc. cbn [app]. apply (H1 (n :: a) b); [rewrite Eq; reflexivity|exact NB].
    + split; [discriminate|]. intros [H1 _]. specialize (H1 [] (n :: rest) eq_refl ltac:(discriminate)). rewrite app_nil_r in H1. congruence.
    + split; [discriminate|]. intros [H1 _]. specialize (H1 [] (n :: rest) eq_refl ltac:(discriminate)). rewrite app_nil_r in H1. congruence.
    + split; [discriminate|]. intros [H1 _]. specialize (H1 [] (n :: rest) eq_refl ltac:(discriminate)). rewrite app_nil_r in H1. congruence.
Qed.
Lemma lstat_ok fs p x : Forall ordinary p -> (lstat fs (written p) = Some x <-> dirs fs p /\ fs p = Some x).
Proof. intros O. unfold lstat. rewrite names_written by exact O. apply at_names_ok. Qed.
Lemma dirs_snoc fs d n : dirs fs (d ++ [n]) <-> dirs fs d /\ fs d = Some Directory.
Proof.
  unfold dirs. split.
  - intros H. split; [|apply (H d [n]); [reflexivity|discriminate]]. intros a b E NB. apply (H a (b ++ [n])); [rewrite E, app_assoc; reflexivity|destruct b; discriminate].
  - intros [H1 H2] a b E NB. destruct (snoc_case b) as [->|(b' & m & ->)]; [congruence|]. rewrite app_assoc in E. apply app_inj_tail in E as [E _]. destruct b' as [|y b'].
    + rewrite app_nil_r in E. subst a. exact H2.
    + apply (H1 a (y :: b') E). discriminate.
Qed.
(** where rpath can be *)
Definition real (x : node) : Prop := forall t, x <> Symlink t.
Definition place (fs : filesys) (d : list str) : Prop := Forall ordinary d /\ dirs fs d /\ exists x, fs d = Some x /\ real x.
Lemma place_up fs d : fs [] = Some Directory -> place fs d -> place fs (removelast d).
Proof.
  intros R (O & D & X). destruct (snoc_case d) as [->|(d' & n & ->)]; [repeat split; auto|]. rewrite removelast_last. apply Forall_app in O as [O _]. apply dirs_snoc in D as [D E].
  split; [exact O|]. split; [exact D|]. exists Directory. split; [exact E|]. intros t. discriminate.
Qed.

(** * Without the checks for directories and without dots *)
Section Lax.
  Variable fs : filesys.
  Inductive lax : list str -> list str -> list str -> Prop :=
  | l_end d : lax d [] d
  | l_up d l p : lax (removelast d) l p -> lax d (dotdot :: l) p
  | l_name d n x l p : ordinary n -> fs d = Some Directory -> fs (d ++ [n]) = Some x -> real x -> lax (d ++ [n]) l p -> lax d (n :: l) p
  | l_link d n t l d' p : ordinary n -> fs d = Some Directory -> fs (d ++ [n]) = Some (Symlink t) -> (absolute t -> d' = []) -> (~ absolute t -> d' = d) ->
      lax d' (names0 t ++ l) p -> lax d (n :: l) p.
  Lemma absolute_dec t : absolute t \/ ~ absolute t.
  Proof. destruct t as [|c t]; [right; intros (s & E); discriminate|]. destruct (Z.eq_dec c 47) as [->|N]; [left; exists t; reflexivity|right]. intros (s & E). congruence. Qed.
  Lemma lax_fun d l p : lax d l p -> forall p', lax d l p' -> p = p'.
  Proof.
    induction 1 as [d|d l p H IH|d n x l p O D F R H IH|d n t l d' p O D F A1 A2 H IH]; intros p' H'.
    - inversion H'. reflexivity.
    - inversion H' as [| |? ? ? ? ? O2|? ? ? ? ? ? O2]; subst; auto; destruct O2 as (_ & _ & _ & O2); destruct (O2 eq_refl).
    - inversion H' as [|? ? ? H2|? ? x2 ? ? O2 D2 F2 R2 H2|? ? t2 ? ? ? O2 D2 F2]; subst.
      + destruct O as (_ & _ & _ & O). destruct (O eq_refl).
      + apply IH. exact H2.
      + rewrite F in F2. injection F2 as ->. destruct (R t2 eq_refl).
    - inversion H' as [|? ? ? H2|? ? x2 ? ? O2 D2 F2 R2 H2|? ? t2 ? d2 ? O2 D2 F2 B1 B2 H2]; subst.
      + destruct O as (_ & _ & _ & O). destruct (O eq_refl).
      + rewrite F in F2. injection F2 as <-. destruct (R2 t eq_refl).
      + rewrite F in F2. injection F2 as <-. assert (d' = d2) as <- by (destruct (absolute_dec t) as [A|A]; [rewrite (A1 A), (B1 A)|rewrite (A2 A), (B2 A)]; reflexivity). apply IH. exact H2.
  Qed.
  Lemma nodot_ordinary n : ordinary n -> nodot n = true.
  Proof. intros (_ & _ & N & _). unfold nodot. apply str_eqb_no in N. rewrite N. reflexivity. Qed.
  Lemma walk_lax k d l p : walk fs k d l p -> lax d (filter nodot l) p.
  Proof.
    induction 1 as [k d|k d l p D H IH|k d l p D H IH|k d n x l p O D F R H IH|k d n t ts l d' p O D F P A1 A2 H IH].
    - constructor.
    - exact IH.
    - cbn [filter]. change (nodot dotdot) with true. cbn iota. constructor. exact IH.
    - cbn [filter]. rewrite (nodot_ordinary n O). econstructor; eauto.
    - cbn [filter]. rewrite (nodot_ordinary n O). apply (l_link d n t _ d'); auto. rewrite filter_app in IH. unfold names0. rewrite (parts_names _ _ P). exact IH.
  Qed.
End Lax.

(** * The loop *)
Section Loop.
  Variable fs : filesys.
  Variables path_max maxsymlinks : nat.
  Hypothesis root : fs [] = Some Directory.
  Notation loop := (loop fs path_max maxsymlinks).

  (** after a component that is not a dot *)
  Definition step (fuel : nat) (rp comp end_ : str) (num_links : nat) : out :=
    if str_eqb comp [46; 46] then loop fuel (back rp) end_ num_links
    else if (path_max <=? length (with_slash rp) + length comp)%nat then Fail
    else match lstat fs (rev (rev comp ++ with_slash rp)) with
         | None => Fail
         | Some (Symlink target) =>
             if (maxsymlinks <? S num_links)%nat then Fail
             else if (path_max <=? length target + length end_)%nat then Fail
             else loop fuel (match target with c :: _ => if c =? slash then [slash] else back (rev comp ++ with_slash rp) | [] => back (rev comp ++ with_slash rp) end)
                    (target ++ end_) (S num_links)
         | Some _ => loop fuel (rev comp ++ with_slash rp) end_ 0
         end.
  Lemma loop_next fuel rp name links : loop (S fuel) rp name links =
    match name with [] => finish rp | _ =>
      let '(comp, end_) := component (skip_slashes name) in
      match comp with [] => finish rp | _ => if str_eqb comp [46] then loop fuel rp end_ links else step fuel rp comp end_ links end end.
  Proof. reflexivity. Qed.

  Lemma names0_app s e : slashy e -> names0 (s ++ e) = names0 s ++ names0 e.
  Proof. intros SL. unfold names0. rewrite names_app by exact SL. apply filter_app. Qed.

  (** what the step does *)
  Lemma step_up f rp d e links : Forall ordinary d -> reps rp d -> exists rp', reps rp' (removelast d) /\ step f rp dotdot e links = loop f rp' e links.
  Proof. intros O R. exists (back rp). split; [apply back_ok; assumption|reflexivity]. Qed.
  Lemma step_rp (rp : str) (d : list str) (n : str) : Forall ordinary d -> reps rp d -> rev n ++ with_slash rp = rev (written (d ++ [n])).
  Proof. intros O R. rewrite (with_slash_ok rp d O R). apply rp_name. Qed.
  Lemma link_rp (d : list str) (n t : str) : ordinary n -> Forall ordinary d ->
    exists d', (absolute t -> d' = []) /\ (~ absolute t -> d' = d) /\
      reps (match t with c :: _ => if c =? slash then [slash] else back (rev (written (d ++ [n]))) | [] => back (rev (written (d ++ [n]))) end) d'.
  Proof.
    intros On O. assert (B : reps (back (rev (written (d ++ [n])))) d) by (left; rewrite back_full by exact On; cbn [rev]; rewrite rev_involutive; reflexivity).
    destruct t as [|c t]; [exists d; repeat split; auto; intros (s & E); discriminate|]. destruct (Z.eqb_spec c slash) as [->|N].
    - exists []. split; [reflexivity|]. split; [|left; reflexivity]. intros NA. destruct NA. exists t. reflexivity.
    - exists d. split; [|split; [reflexivity|exact B]]. intros (s & E). destruct N. inversion E. reflexivity.
  Qed.

  Lemma sound f : forall rp s links d r, place fs d -> reps rp d -> loop f rp s links = Done r ->
    exists p, lax fs d (names0 s) p /\ place fs p /\ r = path_text p.
  Proof.
    induction f as [|f IH]; intros rp s links d r P R H; [discriminate|]. rewrite loop_next in H. destruct P as (O & D & X).
    assert (FIN : names0 s = [] -> finish rp = Done r -> exists p, lax fs d (names0 s) p /\ place fs p /\ r = path_text p).
    { intros E F. rewrite (finish_ok rp d O R) in F. injection F as <-. exists d. rewrite E. split; [constructor|]. split; [repeat split; assumption|reflexivity]. }
    destruct s as [|c s]; [apply FIN; [reflexivity|exact H]|]. destruct (component (skip_slashes (c :: s))) as [n e] eqn:C.
    destruct (next_ok _ _ _ C) as [[-> N]|(NE & NS & SL & N & LE)]; [apply FIN; [unfold names0; rewrite N; reflexivity|exact H]|]. clear FIN.
    assert (H' : (if str_eqb n [46] then loop f rp e links else step f rp n e links) = Done r) by (destruct n; [congruence|exact H]). clear H.
    destruct (str_eqb n [46]) eqn:DT.
    - assert (n = dot) by (apply str_eqb_ok; exact DT). subst n. destruct (IH rp e links d r) as (p & L & P' & E); [repeat split; assumption|exact R|exact H'|]. exists p. split; [|split; assumption].
      unfold names0. rewrite N. exact L.
    - assert (ND : n <> dot) by (apply str_eqb_no; exact DT). assert (N0 : names0 (c :: s) = n :: names0 e) by (unfold names0; rewrite N; cbn [filter]; unfold nodot at 1; change dot with [46]; rewrite DT; reflexivity).
      rewrite N0. unfold step in H'. destruct (str_eqb n [46; 46]) eqn:DD.
      + assert (n = dotdot) by (apply str_eqb_ok; exact DD). subst n.
        destruct (IH (back rp) e links (removelast d) r) as (p & L & P' & E); [apply place_up; [exact root|repeat split; assumption]|apply back_ok; assumption|exact H'|].
        exists p. split; [constructor; exact L|split; assumption].
      + assert (On : ordinary n) by (repeat split; auto; apply str_eqb_no; exact DD).
        rewrite (step_rp rp d n O R) in H'. rewrite rev_involutive in H'. destruct ((path_max <=? length (with_slash rp) + length n)%nat); [discriminate H'|].
        assert (O' : Forall ordinary (d ++ [n])) by (apply Forall_app; split; [exact O|repeat constructor; apply On]).
        match type of H' with match ?u with _ => _ end = _ => destruct u as [x|] eqn:LS end; [|discriminate H']. apply lstat_ok in LS as [DD' F]; [|exact O']. assert (DIR := proj2 (proj1 (dirs_snoc fs d n) DD')).
        assert (NL : real x -> loop f (rev (written (d ++ [n]))) e 0 = Done r -> exists p, lax fs d (n :: names0 e) p /\ place fs p /\ r = path_text p).
        { intros Rx H. destruct (IH (rev (written (d ++ [n]))) e 0%nat (d ++ [n]) r) as (p & L & P' & E); [|right; split; [destruct d; discriminate|apply rev_involutive]|exact H|].
          - split; [exact O'|]. split; [exact DD'|]. exists x. split; assumption.
          - exists p. split; [apply (l_name fs d n x); assumption|split; assumption]. }
        destruct x as [|t|]; [apply NL; [intros t; discriminate|exact H']| |apply NL; [intros t; discriminate|exact H']].
        destruct ((maxsymlinks <? S links)%nat); [discriminate|]. destruct ((path_max <=? length t + length e)%nat); [discriminate|].
        destruct (link_rp d n t On O) as (d' & A1 & A2 & R'). assert (PL' : place fs d').
        { destruct (absolute_dec t) as [A|A]; [rewrite (A1 A)|rewrite (A2 A); split; [exact O|split; [exact D|exact X]]]. split; [constructor|]. split; [intros a b E NB; symmetry in E; apply app_eq_nil in E as [_ E]; congruence|]. exists Directory. split; [exact root|intros u; discriminate]. }
        destruct (IH _ (t ++ e) (S links) d' r PL' R' H') as (p & L & P' & E).
        exists p. split; [|split; assumption]. rewrite names0_app in L by exact SL. apply (l_link fs d n t _ d'); assumption.
  Qed.
End Loop.

(** The first name that is not a dot *)
Lemma first_name fs maxsymlinks m : forall s, (length s < m)%nat ->
    (names0 s = [] /\ exists k, forall path_max f rp links, loop fs path_max maxsymlinks (k + S f) rp s links = finish rp) \/
    (exists n e k, names0 s = n :: names0 e /\ n <> [] /\ ~ In 47 n /\ n <> dot /\ slashy e /\
       forall path_max f rp links, loop fs path_max maxsymlinks (k + S f) rp s links = step fs path_max maxsymlinks f rp n e links).
Proof.
    induction m as [|m IH]; intros s L; [lia|]. destruct s as [|c s]; [left; split; [reflexivity|]; exists O; reflexivity|].
    destruct (component (skip_slashes (c :: s))) as [n e] eqn:C. destruct (next_ok _ _ _ C) as [[-> N]|(NE & NS & SL & N & LE)].
    - left. unfold names0. rewrite N. split; [reflexivity|]. exists O. intros pm f rp links. cbn [Nat.add]. rewrite loop_next, C. reflexivity.
    - destruct (str_eqb n [46]) eqn:D.
      + assert (n = dot) by (apply str_eqb_ok; exact D). subst n. assert (N0 : names0 (c :: s) = names0 e) by (unfold names0; rewrite N; reflexivity).
        assert (ST : forall pm f rp links, loop fs pm maxsymlinks (S f) rp (c :: s) links = loop fs pm maxsymlinks f rp e links) by (intros; rewrite loop_next, C; reflexivity).
        destruct (IH e ltac:(lia)) as [[E (k & H)]|(n & e' & k & E & A1 & A2 & A3 & A4 & H)].
        * left. rewrite N0. split; [exact E|]. exists (S k). intros. cbn [Nat.add]. rewrite ST. apply H.
        * right. exists n, e', (S k). rewrite N0. repeat (split; [assumption|]). intros. cbn [Nat.add]. rewrite ST. apply H.
      + right. exists n, e, O. assert (ND : n <> dot) by (apply str_eqb_no; exact D). repeat (split; [solve [auto]|]) || idtac. split; [|split; [exact NE|split; [exact NS|split; [exact ND|split; [exact SL|]]]]].
        * unfold names0. rewrite N. cbn [filter]. unfold nodot at 1. change dot with [46]. rewrite D. reflexivity.
        * intros pm f rp links. cbn [Nat.add]. rewrite loop_next, C. destruct n; [congruence|]. rewrite D. reflexivity.
Qed.
Lemma starts fs maxsymlinks s n l : names0 s = n :: l -> exists e k, names0 e = l /\ slashy e /\
   forall path_max f rp links, loop fs path_max maxsymlinks (k + S f) rp s links = step fs path_max maxsymlinks f rp n e links.
Proof.
  intros E. destruct (first_name fs maxsymlinks (S (length s)) s ltac:(lia)) as [[E' _]|(n' & e & k & E' & _ & _ & _ & SL & H)]; rewrite E in E'; [discriminate|].
  injection E' as -> ->. exists e, k. auto.
Qed.

Lemma complete fs maxsymlinks k d l p : fs [] = Some Directory -> walk fs k d l p -> forall s rp links, names0 s = filter nodot l -> place fs d -> reps rp d -> (links + k <= maxsymlinks)%nat ->
  exists f0 M, forall f path_max, (f0 <= f)%nat -> (M <= path_max)%nat -> loop fs path_max maxsymlinks f rp s links = Done (path_text p).
Proof.
  intros root. induction 1 as [k d|k d l p D H IH|k d l p D H IH|k d n x l p O D F R H IH|k d n t ts l d' p O D F P A1 A2 H IH]; intros s rp links E PL RP LK.
  - destruct (first_name fs maxsymlinks (S (length s)) s ltac:(lia)) as [[_ (j & Hj)]|(n & e & j & E' & _)]; [|rewrite E' in E; discriminate].
    exists (S j), O. intros f pm Ff _. replace f with (j + S (f - S j))%nat by lia. rewrite Hj. apply finish_ok; [apply PL|exact RP].
  - exact (IH s rp links E PL RP LK).
  - cbn [filter] in E. change (nodot dotdot) with true in E. cbn iota in E.
    destruct (starts fs maxsymlinks s dotdot _ E) as (e & j & Ee & SL & ST). destruct (IH e (back rp) links Ee) as (f0 & M & G); [apply place_up; assumption|apply back_ok; [apply PL|exact RP]|exact LK|].
    exists (j + S f0)%nat, M. intros f pm Ff Fm. replace f with (j + S (f - S j))%nat by lia. rewrite ST. apply (G (f - S j)%nat pm); lia.
  - cbn [filter] in E. rewrite (nodot_ordinary n O) in E. destruct (starts fs maxsymlinks s n _ E) as (e & j & Ee & SL & ST). destruct PL as (PO & PD & PX).
    assert (O' : Forall ordinary (d ++ [n])) by (apply Forall_app; split; [exact PO|repeat constructor; apply O]). assert (D' : dirs fs (d ++ [n])) by (apply dirs_snoc; split; assumption).
    destruct (IH e (rev (written (d ++ [n]))) 0%nat Ee) as (f0 & M & G); [split; [exact O'|]; split; [exact D'|]; exists x; split; assumption|right; split; [destruct d; discriminate|apply rev_involutive]|lia|].
    exists (j + S f0)%nat, (Nat.max M (S (length (with_slash rp) + length n))). intros f pm Ff Fm. replace f with (j + S (f - S j))%nat by lia. rewrite ST. unfold step.
    destruct O as (O1 & O2 & O3 & O4). apply str_eqb_no in O4. unfold dotdot in O4. rewrite O4. destruct (Nat.leb_spec pm (length (with_slash rp) + length n)) as [B|_]; [lia|].
    rewrite (step_rp rp d n PO RP), rev_involutive. rewrite (proj2 (lstat_ok fs (d ++ [n]) x O') (conj D' F)).
    destruct x as [|t|]; [apply G; lia|destruct (R t eq_refl)|apply G; lia].
  - cbn [filter] in E. rewrite (nodot_ordinary n O) in E. destruct (starts fs maxsymlinks s n _ E) as (e & j & Ee & SL & ST). destruct PL as (PO & PD & PX).
    assert (O' : Forall ordinary (d ++ [n])) by (apply Forall_app; split; [exact PO|repeat constructor; apply O]). assert (D' : dirs fs (d ++ [n])) by (apply dirs_snoc; split; assumption).
    destruct (link_rp d n t O PO) as (d2 & B1 & B2 & R2). assert (d' = d2) as <- by (destruct (absolute_dec t) as [A|A]; [rewrite (A1 A), (B1 A)|rewrite (A2 A), (B2 A)]; reflexivity).
    assert (PL' : place fs d').
    { destruct (absolute_dec t) as [A|A]; [rewrite (A1 A)|rewrite (A2 A); split; [exact PO|split; [exact PD|exact PX]]]. split; [constructor|].
      split; [intros a b E0 NB; symmetry in E0; apply app_eq_nil in E0 as [_ E0]; congruence|]. exists Directory. split; [exact root|intros u; discriminate]. }
    assert (Et : names0 (t ++ e) = filter nodot (ts ++ l)) by (rewrite names0_app by exact SL; rewrite filter_app, Ee; unfold names0; rewrite (parts_names _ _ P); reflexivity).
    destruct (IH (t ++ e) _ (S links) Et PL' R2 ltac:(lia)) as (f0 & M & G).
    exists (j + S f0)%nat, (Nat.max M (Nat.max (S (length t + length e)) (S (length (with_slash rp) + length n)))). intros f pm Ff Fm. replace f with (j + S (f - S j))%nat by lia. rewrite ST. unfold step.
    destruct O as (O1 & O2 & O3 & O4). apply str_eqb_no in O4. unfold dotdot in O4. rewrite O4. destruct (Nat.leb_spec pm (length (with_slash rp) + length n)) as [B|_]; [lia|].
    rewrite (step_rp rp d n PO RP), rev_involutive. rewrite (proj2 (lstat_ok fs (d ++ [n]) (Symlink t) O') (conj D' F)).
    destruct (Nat.ltb_spec maxsymlinks (S links)) as [B|_]; [lia|]. destruct (Nat.leb_spec pm (length t + length e)) as [B|_]; [lia|]. apply G; lia.
Qed.

(** * The whole *)
Lemma absolute_start name cwd c : cwd = path_text c -> exists d, (absolute name -> d = []) /\ (~ absolute name -> d = c) /\
  reps (match name with x :: _ => if x =? slash then [slash] else rev cwd | [] => rev cwd end) d.
Proof.
  intros ->. assert (R : reps (rev (path_text c)) c). { destruct c as [|n c]; [left; reflexivity|right; split; [discriminate|apply rev_involutive]]. }
  destruct name as [|x name]; [exists c; repeat split; auto; intros (s & E); discriminate|]. destruct (Z.eqb_spec x slash) as [->|N].
  - exists []. split; [reflexivity|]. split; [intros NA; destruct NA; exists name; reflexivity|left; reflexivity].
  - exists c. split; [|split; [reflexivity|exact R]]. intros (s & E). destruct N. inversion E. reflexivity.
Qed.
Lemma root_place fs : fs [] = Some Directory -> place fs [].
Proof. intros R. split; [constructor|]. split; [intros a b E NB; symmetry in E; apply app_eq_nil in E as [_ E]; congruence|]. exists Directory. split; [exact R|intros u; discriminate]. Qed.
Lemma place_canonical fs p : place fs p <-> canonical fs p.
Proof. reflexivity. Qed.
Lemma start_place fs c d name : fs [] = Some Directory -> place fs c -> (absolute name -> d = []) -> (~ absolute name -> d = c) -> place fs d.
Proof. intros R P A1 A2. destruct (absolute_dec name) as [A|A]; [rewrite (A1 A); apply root_place; exact R|rewrite (A2 A); exact P]. Qed.
Lemma realpath_sound fs c pm ms f name r : fs [] = Some Directory -> canonical fs c -> realpath fs (path_text c) pm ms f name = Done r ->
  exists d p, (absolute name -> d = []) /\ (~ absolute name -> d = c) /\ lax fs d (names0 name) p /\ canonical fs p /\ r = path_text p.
Proof.
  intros R P H. destruct (absolute_start name _ c eq_refl) as (d & A1 & A2 & RP). destruct (sound fs pm ms R f _ name O d r (start_place fs c d name R P A1 A2) RP H) as (p & L & C & E).
  exists d, p. auto.
Qed.
Lemma realpath_complete fs c ms name l p d k : fs [] = Some Directory -> canonical fs c -> (absolute name -> d = []) -> (~ absolute name -> d = c) -> parts name l -> walk fs k d l p -> (k <= ms)%nat ->
  exists f0 M, forall f pm, (f0 <= f)%nat -> (M <= pm)%nat -> realpath fs (path_text c) pm ms f name = Done (path_text p).
Proof.
  intros R P A1 A2 PT W K. destruct (absolute_start name _ c eq_refl) as (d2 & B1 & B2 & RP).
  assert (d = d2) as <- by (destruct (absolute_dec name) as [A|A]; [rewrite (A1 A), (B1 A)|rewrite (A2 A), (B2 A)]; reflexivity).
  apply (complete fs ms k d l p R W name _ O); [apply parts_names; exact PT|exact (start_place fs c d name R P A1 A2)|exact RP|exact K].
Qed.
(** its results lead to themselves *)
Lemma path_text_parts p : Forall ordinary p -> parts (path_text p) p.
Proof.
  intros O. assert (X : forall p, Forall ordinary p -> forall n, ordinary n -> parts (n ++ written p) (n :: p)).
  { induction 1 as [|m q Om _ IH]; intros n (NE & N & _); [cbn [written]; rewrite app_nil_r; constructor; assumption|]. cbn [written]. apply p_more; auto. discriminate. }
  destruct O as [|n p On O]; [apply p_slash; constructor|]. apply p_slash. apply X; assumption.
Qed.
Lemma canonical_walk fs p : forall d, Forall ordinary p -> (forall a b, p = a ++ b -> b <> [] -> fs (d ++ a) = Some Directory) -> (exists x, fs (d ++ p) = Some x /\ forall t, x <> Symlink t) -> walk fs 0 d p (d ++ p).
Proof.
  induction p as [|n p IH]; intros d O D (x & F & R); [rewrite app_nil_r; constructor|]. apply Forall_cons_iff in O as [On O].
  assert (D0 : fs d = Some Directory) by (rewrite <- (app_nil_r d); apply (D [] (n :: p)); [reflexivity|discriminate]).
  assert (F1 : exists y, fs (d ++ [n]) = Some y /\ forall t, y <> Symlink t).
  { destruct p as [|m p]; [exists x; split; assumption|]. exists Directory. split; [apply (D [n] (m :: p)); [reflexivity|discriminate]|intros t; discriminate]. }
  destruct F1 as (y & F1 & R1). apply (w_name fs 0 d n y); auto. replace (d ++ n :: p) with ((d ++ [n]) ++ p) by (rewrite <- app_assoc; reflexivity). apply IH; [exact O| |].
  - intros a b E NB. rewrite <- app_assoc. apply (D (n :: a) b); [rewrite E; reflexivity|exact NB].
  - exists x. rewrite <- app_assoc. split; assumption.
Qed.
Lemma component_run n e : ~ In 47 n -> slashy e -> component (n ++ e) = (n, e).
Proof.
  intros N SL. induction n as [|c n IH]; [destruct SL as [->|(e' & ->)]; reflexivity|]. cbn [app component]. destruct (Z.eqb_spec c slash) as [->|]; [destruct N; left; reflexivity|].
  rewrite IH by (intros I; apply N; right; exact I). reflexivity.
Qed.
Lemma canonical_loop fs pm ms p : forall d rp links f, canonical fs (d ++ p) -> reps rp d -> (length (written (d ++ p)) < pm)%nat -> (length p < f)%nat ->
  loop fs pm ms f rp (written p) links = Done (path_text (d ++ p)).
Proof.
  induction p as [|n p IH]; intros d rp links f C R L F; destruct f as [|f]; try (cbn in F; lia).
  - rewrite loop_next. cbn [written]. rewrite app_nil_r in *. apply finish_ok; [apply C|exact R].
  - rewrite loop_next. cbn [written]. destruct C as (O & D & X). assert (O0 := O). apply Forall_app in O0 as [Od On]. apply Forall_cons_iff in On as [On Op]. assert (On' := On). destruct On' as (N1 & N2 & N3 & N4).
    assert (SK : skip_slashes (47 :: n ++ written p) = n ++ written p).
    { cbn [skip_slashes]. change (47 =? slash) with true. cbn iota. destruct n as [|c n]; [congruence|]. cbn [app skip_slashes]. destruct (Z.eqb_spec c slash) as [->|]; [destruct N2; left; reflexivity|reflexivity]. }
    rewrite SK, component_run by (assumption || apply slashy_written). assert (E1 : str_eqb n [46] = false) by (apply str_eqb_no; exact N3). assert (E2 : str_eqb n [46; 46] = false) by (apply str_eqb_no; exact N4).
    assert (ST : step fs pm ms f rp n (written p) links = Done (path_text (d ++ n :: p))).
    { unfold step. rewrite E2. replace (d ++ n :: p) with ((d ++ [n]) ++ p) in * by (rewrite <- app_assoc; reflexivity).
      assert (LE : (length (with_slash rp) + length n = length (written (d ++ [n])))%nat).
      { rewrite (with_slash_ok rp d Od R), written_app, app_length. cbn [written]. rewrite app_nil_r. cbn [length]. rewrite rev_length. lia. }
      destruct (Nat.leb_spec pm (length (with_slash rp) + length n)) as [B|_]; [rewrite written_app, app_length in L; lia|].
      rewrite (step_rp rp d n Od R), rev_involutive. assert (O' : Forall ordinary (d ++ [n])) by (apply Forall_app in O as [O _]; exact O).
      assert (LS : exists y, fs (d ++ [n]) = Some y /\ forall t, y <> Symlink t).
      { destruct p as [|m p]; [rewrite app_nil_r in X; exact X|]. exists Directory. split; [apply (D (d ++ [n]) (m :: p)); [reflexivity|discriminate]|intros t; discriminate]. }
      destruct LS as (y & F1 & R1). assert (DS : dirs fs (d ++ [n])).
      { intros a b E NB. apply (D a (b ++ p)); [rewrite app_assoc, <- E; reflexivity|]. destruct b; [congruence|discriminate]. }
      rewrite (proj2 (lstat_ok fs (d ++ [n]) y O') (conj DS F1)).
      assert (G : loop fs pm ms f (rev (written (d ++ [n]))) (written p) 0 = Done (path_text ((d ++ [n]) ++ p))).
      { apply IH; [split; [exact O|split; [exact D|exact X]]|right; split; [destruct d; discriminate|apply rev_involutive]|exact L|cbn in F; lia]. }
      destruct y as [|t|]; [exact G|destruct (R1 t eq_refl)|exact G]. }
    destruct n; [congruence|]. rewrite E1. exact ST.
Qed.
Lemma again fs cwd pm ms p f : canonical fs p -> (length (path_text p) < pm)%nat -> (length p < f)%nat -> realpath fs cwd pm ms f (path_text p) = Done (path_text p).
Proof.
  intros C L F. unfold realpath. destruct p as [|n p].
  - destruct f as [|f]; [cbn in F; lia|]. rewrite loop_next. reflexivity.
  - change (path_text (n :: p)) with (written ([] ++ n :: p)) at 1. cbn [app]. change (path_text (n :: p)) with (written (n :: p)) in L. cbn [written]. change (47 =? slash) with true. cbn iota.
    apply (canonical_loop fs pm ms (n :: p) [] [slash] 0 f C); [left; reflexivity|exact L|exact F].
Qed.
Lemma path_text_len p : Forall ordinary p -> (length p <= length (path_text p))%nat.
Proof.
  intros O. destruct O as [|n p On O]; [cbn; lia|]. cbn [path_text]. assert (X : forall q, (length q <= length (written q))%nat) by (induction q as [|m q IH]; [reflexivity|cbn [written length]; rewrite app_length; lia]). apply X.
Qed.
