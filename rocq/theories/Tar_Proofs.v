(** Proofs about listings of tar files *)

From Coq Require Import ZArith List Bool Lia.
From Verif Require Import Tar_Model Tar_Spec.
Import ListNotations.
Open Scope Z_scope.

Lemma first_app : forall l r, ~ In 10 l -> first_line (l ++ 10 :: r) = Some (l, r).
Proof.
  induction l as [|c l IH]; intros r N; [reflexivity|]. cbn [app first_line].
  replace (c =? 10) with false by (symmetry; apply Z.eqb_neq; intros ->; apply N; left; reflexivity).
  rewrite IH by (intros X; apply N; right; exact X). reflexivity.
Qed.
Lemma first_none : forall t, ~ In 10 t -> first_line t = None.
Proof.
  induction t as [|c t IH]; intros N; [reflexivity|]. cbn [first_line].
  replace (c =? 10) with false by (symmetry; apply Z.eqb_neq; intros ->; apply N; left; reflexivity).
  rewrite IH by (intros X; apply N; right; exact X). reflexivity.
Qed.
(** every text is lines and a rest *)
Lemma decompose : forall t, exists lines rest, t = listing lines ++ rest /\ Forall (fun l => ~ In 10 l) lines /\ ~ In 10 rest.
Proof.
  induction t as [|c t (lines & rest & -> & F & N)]; [exists [], []; repeat split; [constructor|intros []]|].
  destruct (Z.eq_dec c 10) as [->|D].
  - exists ([] :: lines), rest. split; [reflexivity|]. split; [constructor; [intros []|exact F]|exact N].
  - destruct lines as [|l lines].
    + exists [], (c :: rest). split; [reflexivity|]. split; [constructor|]. intros [X|X]; [congruence|exact (N X)].
    + inversion F as [|? ? Fl Fs]; subst. exists ((c :: l) :: lines), rest. split; [reflexivity|]. split; [|exact N].
      constructor; [|exact Fs]. intros [X|X]; [congruence|exact (Fl X)].
Qed.
Lemma unique : forall l1 l2 r1 r2, Forall (fun l => ~ In 10 l) l1 -> Forall (fun l => ~ In 10 l) l2 -> ~ In 10 r1 -> ~ In 10 r2 ->
  listing l1 ++ r1 = listing l2 ++ r2 -> l1 = l2 /\ r1 = r2.
Proof.
  assert (St : forall l ls r, listing (l :: ls) ++ r = l ++ 10 :: listing ls ++ r) by (intros; unfold listing; cbn [map concat]; rewrite <- !app_assoc; reflexivity).
  induction l1 as [|a l1 IH]; intros l2 r1 r2 F1 F2 N1 N2 E; destruct l2 as [|b l2].
  - auto.
  - rewrite St in E. exfalso. apply N1. change (listing [] ++ r1) with r1 in E. rewrite E. apply in_or_app. right. left. reflexivity.
  - rewrite St in E. exfalso. apply N2. change (listing [] ++ r2) with r2 in E. rewrite <- E. apply in_or_app. right. left. reflexivity.
  - inversion F1; inversion F2; subst. rewrite !St in E. apply (f_equal first_line) in E. rewrite !first_app in E by assumption.
    assert (E1 : a = b /\ listing l1 ++ r1 = listing l2 ++ r2) by (split; congruence). destruct E1 as (-> & E1).
    apply IH in E1 as (-> & ->); auto.
Qed.

Section Listing.
Context {E : Type}.
Variable parse : list Z -> E.
Lemma loop_lines : forall lines fuel rest es, Forall (fun l => ~ In 10 l) lines -> ~ In 10 rest -> (length lines < fuel)%nat ->
  lines_loop parse fuel (listing lines ++ rest) es = (rest, rev (map parse lines) ++ es).
Proof.
  induction lines as [|l lines IH]; intros fuel rest es F N L; (destruct fuel as [|fuel]; [cbn in L; lia|]).
  - cbn [listing map concat app lines_loop rev]. rewrite first_none by exact N. reflexivity.
  - inversion F; subst. unfold listing. cbn [map concat]. fold (listing lines). rewrite <- !app_assoc. cbn [app lines_loop].
    rewrite first_app by assumption. rewrite IH by (auto; cbn in L; lia). cbn [map rev]. rewrite <- app_assoc. reflexivity.
Qed.
Lemma listing_length : forall lines, (length lines <= length (listing lines))%nat.
Proof. induction lines as [|l lines IH]; [cbn; lia|]. unfold listing in *. cbn [map concat length]. rewrite !app_length. cbn. lia. Qed.
Lemma output_is : forall pe es piece lines rest, pe ++ piece = listing lines ++ rest -> Forall (fun l => ~ In 10 l) lines -> ~ In 10 rest ->
  output_function parse (pe, es) piece = (rest, rev (map parse lines) ++ es).
Proof.
  intros pe es piece lines rest E0 F N. unfold output_function. cbn [fst snd]. rewrite E0. apply loop_lines; auto.
  pose proof (listing_length lines). rewrite app_length. lia.
Qed.
Lemma pieces_are : forall pieces lines rest, concat pieces = listing lines ++ rest -> Forall (fun l => ~ In 10 l) lines -> ~ In 10 rest ->
  fold_left (output_function parse) pieces ([], []) = (rest, rev (map parse lines)).
Proof.
  induction pieces as [|p pieces IH] using rev_ind; intros lines rest E0 F N.
  - cbn in E0. assert (E1 : listing [] ++ [] = listing lines ++ rest) by exact E0.
    apply unique in E1 as (<- & <-); auto; constructor.
  - rewrite fold_left_app. cbn [fold_left]. rewrite concat_app in E0. cbn [concat] in E0. rewrite app_nil_r in E0.
    destruct (decompose (concat pieces)) as (l1 & r1 & E1 & F1 & N1). rewrite (IH l1 r1 E1 F1 N1).
    destruct (decompose (r1 ++ p)) as (l2 & r2 & E2 & F2 & N2). rewrite (output_is _ _ _ l2 r2 E2 F2 N2).
    rewrite E1, <- app_assoc, E2, app_assoc in E0.
    assert (Lc : listing l1 ++ listing l2 = listing (l1 ++ l2)) by (unfold listing; rewrite map_app, concat_app; reflexivity).
    rewrite Lc in E0. apply unique in E0 as (<- & <-); auto; [|apply Forall_app; auto].
    rewrite map_app, rev_app_distr. reflexivity.
Qed.
Lemma pending_prefix : forall pieces pe, pieces <> [] -> fold_left (output_function parse) pieces (pe, []) =
  fold_left (output_function parse) ((pe ++ hd [] pieces) :: tl pieces) ([], []).
Proof. intros [|p pieces] pe Ne; [congruence|reflexivity]. Qed.
End Listing.

(** *** Directories *)
Lemma behind_spec : forall dir name r, behind dir name = Some r <-> name = dir ++ r.
Proof.
  induction dir as [|x dir IH]; intros name r; cbn [behind].
  - split; [intros [= ->]; reflexivity|intros ->; reflexivity].
  - destruct name as [|y name]; [split; discriminate|]. destruct (x =? y) eqn:E.
    + apply Z.eqb_eq in E. subst y. rewrite IH. cbn. split; [intros ->; reflexivity|intros [= ->]; reflexivity].
    + apply Z.eqb_neq in E. split; [discriminate|]. intros [= -> ->]. congruence.
Qed.
Lemma component_spec : forall t, ~ In 47 (component t) /\ exists r, t = component t ++ r /\ (r = [] \/ exists r', r = 47 :: r').
Proof.
  induction t as [|c t (N & r & E & R)]; [split; [intros []|exists []; auto]|]. cbn [component]. destruct (c =? 47) eqn:C.
  - apply Z.eqb_eq in C. subst c. split; [intros []|]. exists (47 :: t). split; [reflexivity|]. right. exists t. reflexivity.
  - apply Z.eqb_neq in C. split; [intros [X|X]; [congruence|exact (N X)]|]. exists r. split; [cbn; f_equal; exact E|exact R].
Qed.
Lemma component_app : forall x r, ~ In 47 x -> (r = [] \/ exists r', r = 47 :: r') -> component (x ++ r) = x.
Proof.
  induction x as [|c x IH]; intros r N R.
  - destruct R as [->|(r' & ->)]; reflexivity.
  - cbn [app component]. replace (c =? 47) with false by (symmetry; apply Z.eqb_neq; intros ->; apply N; left; reflexivity).
    f_equal. apply IH; [intros X; apply N; right; exact X|exact R].
Qed.
Lemma add_in : forall dir files name x, In x (add_file dir files name) <->
  In x files \/ (x <> [] /\ ~ In 47 x /\ exists r, name = dir ++ x ++ r /\ (r = [] \/ exists r', r = 47 :: r')).
Proof.
  intros dir files name x. unfold add_file. destruct (behind dir name) as [t|] eqn:B.
  - apply behind_spec in B. destruct (component_spec t) as (N & r & E & R).
    assert (Key : (x <> [] /\ ~ In 47 x /\ exists r0, name = dir ++ x ++ r0 /\ (r0 = [] \/ exists r', r0 = 47 :: r')) <-> x = component t /\ x <> []).
    { split.
      - intros (Ne & Nx & r0 & E0 & R0). rewrite B in E0. apply app_inv_head in E0. split; [|exact Ne]. rewrite E0. symmetry. apply component_app; assumption.
      - intros (-> & Ne). split; [exact Ne|]. split; [exact N|]. exists r. split; [rewrite <- E; exact B|exact R]. }
    rewrite Key. destruct (component t) as [|c u] eqn:Cm; [intuition|].
    destruct (in_dec bytes_dec (c :: u) files) as [I|I].
    + split; [tauto|]. intros [X|(-> & _)]; assumption.
    + cbn [In]. split; [intros [<-|X]; [right; split; [reflexivity|discriminate]|auto]|]. intros [X|(-> & _)]; auto.
  - split; [tauto|]. intros [X|(_ & _ & r & E & _)]; [exact X|]. apply behind_spec in E. congruence.
Qed.
Lemma add_nodup : forall dir files name, NoDup files -> NoDup (add_file dir files name).
Proof.
  intros dir files name N. unfold add_file. destruct (behind dir name) as [t|]; [|exact N]. destruct (component t) as [|c u]; [exact N|].
  destruct (in_dec bytes_dec (c :: u) files); [exact N|]. constructor; assumption.
Qed.
Lemma files_are : forall dir names files, (forall x, In x (fold_left (add_file dir) names files) <-> In x files \/ directly_in dir x names) /\
  (NoDup files -> NoDup (fold_left (add_file dir) names files)).
Proof.
  intros dir. induction names as [|n names IH]; intros files.
  - split; [|auto]. intros x. cbn. unfold directly_in. split; [auto|]. intros [X|(_ & _ & r & [] & _)]; exact X.
  - cbn [fold_left]. destruct (IH (add_file dir files n)) as (I1 & I2). split; [|intros N; apply I2, add_nodup, N].
    intros x. rewrite I1, add_in. unfold directly_in. cbn [In]. split.
    + intros [[X|(A & B & r & C & D)]|(A & B & r & C & D)]; [auto| |]; right; split; auto; split; auto; exists r; auto.
    + intros [X|(A & B & r & [C|C] & D)]; [auto| |]; [left; right|right]; split; auto; split; auto; exists r; auto.
Qed.

(** *** Links *)
Section Links.
Context {N T E : Type}.
Variable get : N -> option (file T E).
Variable expand : T -> N -> N.
Lemma lookup_sound : forall fuel n r, lookup_file get expand fuel n = Some r -> resolves get expand n r.
Proof.
  induction fuel as [|fuel IH]; intros n r H; [discriminate|]. cbn [lookup_file] in H. destruct (get n) as [[t|e]|] eqn:G.
  - apply (R_link _ _ n t r G). apply IH, H.
  - injection H as <-. apply R_other, G.
  - injection H as <-. apply R_missing, G.
Qed.
Lemma lookup_complete : forall n r, resolves get expand n r -> exists fuel, lookup_file get expand fuel n = Some r.
Proof.
  intros n r H. induction H as [n G|n e G|n t r G H (fuel & IH)].
  - exists 1%nat. cbn. rewrite G. reflexivity.
  - exists 1%nat. cbn. rewrite G. reflexivity.
  - exists (S fuel). cbn. rewrite G. exact IH.
Qed.
End Links.

(** *** Modes *)
Lemma modes_all : forallb (fun i => get_modes (100 :: mode_letters (Z.of_nat i)) =? Z.of_nat i) (seq 0 (2 ^ 12)) = true.
Proof. vm_compute. reflexivity. Qed.
Lemma modes_type : forall c s, get_modes (c :: s) = get_modes (100 :: s).
Proof. intros c s. reflexivity. Qed.
Lemma modes_back : forall c m, 0 <= m < 4096 -> get_modes (c :: mode_letters m) = m.
Proof.
  intros c m H. rewrite modes_type. pose proof (proj1 (forallb_forall _ _) modes_all (Z.to_nat m)) as X. cbv beta in X.
  rewrite Z2Nat.id in X by lia. apply Z.eqb_eq, X. apply in_seq. split; [lia|]. change 4096 with (Z.of_nat (2 ^ 12)) in H. lia.
Qed.
