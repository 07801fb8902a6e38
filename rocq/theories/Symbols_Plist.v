(** Property lists and gensym. *)
From Coq Require Import ZArith List Bool Lia Arith.
From Verif Require Import Numbers_Model Numbers_Proofs Values_Model Symbols_Model Symbols_Spec Symbols_Proofs.
Import ListNotations.
Open Scope Z_scope.

(** ** The test *)

Lemma obj_eqb_iff : forall a b, obj_eqb a b = true <-> a = b.
Proof.
  intros [|x|x|x] [|y|y|y]; cbn; split; intros H; try congruence;
    try (apply Nat.eqb_eq in H; congruence); injection H as ->; apply Nat.eqb_refl.
Qed.

Lemma prop_match_iff : forall cls k p, prop_match cls k p = true <-> same_prop cls k p.
Proof.
  intros cls k p. unfold prop_match, same_prop. rewrite orb_true_iff, andb_true_iff, obj_eqb_iff, negb_true_iff.
  split.
  - intros [H|[H1 H2]]; [left; exact H|].
    destruct k as [|x|x|x], p as [|y|y|y]; cbn in H2; try discriminate; auto;
      apply Nat.eqb_eq in H2; try (left; congruence). right. exists x, y. auto.
  - intros [H|(x & y & -> & -> & H)]; [left; exact H|]. right. cbn. split; auto. now apply Nat.eqb_eq.
Qed.

Lemma same_prop_refl : forall cls a, same_prop cls a a.
Proof. intros. now left. Qed.
Lemma same_prop_sym : forall cls a b, same_prop cls a b -> same_prop cls b a.
Proof. intros cls a b [->|(x & y & -> & -> & H)]; [now left|]. right. exists y, x. auto. Qed.
Lemma same_prop_trans : forall cls a b c, same_prop cls a b -> same_prop cls b c -> same_prop cls a c.
Proof.
  intros cls a b c [->|(x & y & -> & -> & H)] H2; [exact H2|].
  destruct H2 as [<-|(x' & y' & E & -> & H')]; [right; eauto|]. injection E as <-.
  right. exists x, y'. repeat split; auto. congruence.
Qed.
Lemma same_prop_dec : forall cls a b, {same_prop cls a b} + {~ same_prop cls a b}.
Proof.
  intros cls a b. destruct (prop_match cls a b) eqn:E.
  - left. now apply prop_match_iff.
  - right. intros H. apply prop_match_iff in H. congruence.
Qed.

(** ** Lists of cells *)

Lemma listed_det : forall ps o l l', listed ps o l -> listed ps o l' -> l = l'.
Proof.
  intros ps o l l' H. revert l'. induction H as [o Ho|c l Hc H IH]; intros l' H'.
  - inversion H'; subst; auto. exfalso. eapply Ho; reflexivity.
  - inversion H' as [o' Ho'|c' l'' Hc' H'']; subst.
    + exfalso. eapply Ho'; reflexivity.
    + f_equal. now apply IH.
Qed.

Lemma listed_tail : forall ps o l c, listed ps o l -> In c l ->
  exists l', listed ps (PCell c) (c :: l') /\ (length (c :: l') <= length l)%nat.
Proof.
  intros ps o l c H. induction H as [o Ho|x l Hx H IH]; intros Hin; [contradiction|].
  destruct Hin as [->|Hin].
  - exists l. split; [constructor; auto|auto].
  - destruct (IH Hin) as (l' & A & B). exists l'. split; auto. cbn in *. lia.
Qed.

Lemma listed_nodup : forall ps o l, listed ps o l -> NoDup l.
Proof.
  intros ps o l H. induction H as [o Ho|c l Hc H IH]; constructor; auto.
  intros Hin. destruct (listed_tail _ _ _ _ H Hin) as (l' & A & B).
  assert (E : c :: l' = c :: l) by (eapply listed_det; [exact A|constructor; auto]).
  injection E as ->. cbn in B. lia.
Qed.

Lemma listed_bound : forall ps o l, listed ps o l -> forall c, In c l -> (c < length (cells ps))%nat.
Proof. intros ps o l H. induction H; intros x Hx; destruct Hx; subst; auto. Qed.

Lemma listed_short : forall ps o l, listed ps o l -> (length l <= length (cells ps))%nat.
Proof. intros. apply nodup_bound; [eapply listed_nodup; eauto|eapply listed_bound; eauto]. Qed.

(** Key and value cells. *)
Fixpoint pairs (l : list nat) : list (nat * nat) :=
  match l with
  | c :: d :: l' => (c, d) :: pairs l'
  | _ => []
  end.

Lemma pairs_ind : forall P : list nat -> Prop, P [] -> (forall c, P [c]) ->
  (forall c d l, P l -> P (c :: d :: l)) -> forall l, P l.
Proof.
  intros P H0 H1 H2. fix IH 1. intros [|c [|d l]]; [exact H0|apply H1|apply H2; apply IH].
Qed.

Definition found (cls : nat -> nat) (ps : pstate) (p : obj) (l : list nat) : option nat :=
  option_map snd (find (fun x => prop_match cls (car ps (fst x)) p) (pairs l)).

Lemma lookup_spec : forall cls ps p l o n, listed ps o l -> (length l < n)%nat ->
  lookup n cls ps p o = Some (found cls ps p l).
Proof.
  intros cls ps p l. induction l as [|c|c d l IH] using pairs_ind; intros o n H Hn.
  - inversion H as [o' Ho|]; subst. destruct n; [lia|]. cbn [lookup].
    destruct o; try reflexivity. exfalso. eapply Ho; reflexivity.
  - inversion H as [|c' l' Hc H']; subst. destruct n; [lia|]. cbn [lookup].
    inversion H' as [o' Ho|]; subst. destruct (cdr ps c) eqn:E; try reflexivity.
    exfalso. eapply Ho; reflexivity.
  - inversion H as [|c' l' Hc H']; subst. destruct n; [lia|]. cbn [lookup length] in *.
    inversion H' as [|d' l' Hd H'' E1 E2]; subst. unfold found. cbn [pairs find fst].
    destruct (prop_match cls (car ps c) p); [reflexivity|]. apply IH; auto. lia.
Qed.

Lemma get_spec : forall cls ps s p l, listed ps (plists ps s) l ->
  get cls ps s p = PRet (match found cls ps p l with Some d => car ps d | None => PNil end).
Proof.
  intros cls ps s p l H. unfold get.
  rewrite (lookup_spec cls ps p l) by (auto; unfold plenty; pose proof (listed_short _ _ _ H); lia).
  now destruct (found cls ps p l).
Qed.

Lemma found_in : forall cls ps p l d, found cls ps p l = Some d ->
  exists c, In (c, d) (pairs l) /\ same_prop cls (car ps c) p.
Proof.
  intros cls ps p l d H. unfold found in H.
  destruct (find (fun x => prop_match cls (car ps (fst x)) p) (pairs l)) as [[c d']|] eqn:F; [|discriminate].
  injection H as <-. apply find_some in F. destruct F as [A B]. exists c. split; auto. now apply prop_match_iff.
Qed.

Lemma pairs_in : forall l c d, In (c, d) (pairs l) -> In c l /\ In d l.
Proof.
  induction l as [|x|x y l IH] using pairs_ind; intros c d H; cbn in H; try contradiction.
  destruct H as [H|H]; [injection H as <- <-; cbn; auto|]. apply IH in H. cbn. tauto.
Qed.

(** In a list without repetitions a value cell is not a key cell, and belongs
    to one key. *)
Lemma pairs_apart : forall l, NoDup l -> forall c d c' d',
  In (c, d) (pairs l) -> In (c', d') (pairs l) -> c' <> d /\ (d = d' -> c = c').
Proof.
  induction l as [|x|x y l IH] using pairs_ind; intros ND c d c' d' H H'; cbn in H, H'; try contradiction.
  inversion ND as [|? ? N1 ND1]; subst. inversion ND1 as [|? ? N2 ND2]; subst.
  destruct H as [H|H], H' as [H'|H'].
  - injection H as <- <-. injection H' as <- <-. split; auto. intros ->. apply N1. now left.
  - injection H as <- <-. apply pairs_in in H'. destruct H' as [A B]. split.
    + intros ->. contradiction.
    + intros ->. contradiction.
  - injection H' as <- <-. apply pairs_in in H. destruct H as [A B]. split.
    + intros ->. apply N1. now right.
    + intros ->. contradiction.
  - now apply (IH ND2).
Qed.

(** *** Writing a value in place *)

Lemma cdr_set_car : forall ps d v c, cdr (set_car ps d v) c = cdr ps c.
Proof.
  intros. unfold cdr, set_car. cbn [cells]. rewrite nth_upd.
  destruct (Nat.eqb_spec c d) as [->|]; cbn [andb]; [|reflexivity].
  now destruct (d <? length (cells ps))%nat.
Qed.
Lemma car_set_car : forall ps d v c, (d < length (cells ps))%nat ->
  car (set_car ps d v) c = if (c =? d)%nat then v else car ps c.
Proof.
  intros ps d v c H. unfold car, set_car. cbn [cells]. rewrite nth_upd.
  apply Nat.ltb_lt in H. rewrite H, andb_true_r. now destruct (c =? d)%nat.
Qed.

Lemma listed_set_car : forall ps d v o l, listed ps o l -> listed (set_car ps d v) o l.
Proof.
  intros ps d v o l H. induction H as [o Ho|c l Hc H IH]; constructor; auto.
  - unfold set_car. cbn [cells]. now rewrite upd_length.
  - now rewrite cdr_set_car.
Qed.

Lemma find_ext_in' : forall A (f g : A -> bool) l, (forall x, In x l -> f x = g x) -> find f l = find g l.
Proof. exact find_ext_in. Qed.

Lemma found_set_car : forall cls ps d v p l, (d < length (cells ps))%nat ->
  (forall c d', In (c, d') (pairs l) -> c <> d) -> found cls (set_car ps d v) p l = found cls ps p l.
Proof.
  intros cls ps d v p l Hd H. unfold found. f_equal. apply find_ext_in.
  intros [c d'] Hin. cbn [fst]. rewrite car_set_car by auto.
  destruct (Nat.eqb_spec c d); [|reflexivity]. exfalso. eapply H; eauto.
Qed.

(** *** New cells *)

Lemma cell_app : forall ps a b f c, (c < length (cells ps))%nat ->
  car (MkP (cells ps ++ [a; b]) f) c = car ps c /\ cdr (MkP (cells ps ++ [a; b]) f) c = cdr ps c.
Proof.
  intros ps a b f c H. unfold car, cdr. cbn [cells]. rewrite app_nth1 by auto. auto.
Qed.

Lemma listed_app : forall ps a b f o l, listed ps o l -> listed (MkP (cells ps ++ [a; b]) f) o l.
Proof.
  intros ps a b f o l H. induction H as [o Ho|c l Hc H IH]; constructor; auto.
  - cbn [cells]. rewrite app_length. cbn. lia.
  - destruct (cell_app ps a b f c Hc) as [_ E]. now rewrite E.
Qed.

Lemma found_app : forall cls ps a b f p o l, listed ps o l ->
  found cls (MkP (cells ps ++ [a; b]) f) p l = found cls ps p l.
Proof.
  intros cls ps a b f p o l H. unfold found. f_equal. apply find_ext_in.
  intros [c d] Hin. cbn [fst]. apply pairs_in in Hin. destruct Hin as [Hc _].
  destruct (cell_app ps a b f c (listed_bound _ _ _ H c Hc)) as [E _]. now rewrite E.
Qed.

(** What put leaves. *)
Lemma put_spec : forall cls ps s p v l, listed ps (plists ps s) l ->
  exists ps', put cls (fun _ => true) ps s p v = (PRet v, ps') /\
   ((exists d, found cls ps p l = Some d /\ ps' = set_car ps d v) \/
    (found cls ps p l = None /\
     ps' = MkP (cells ps ++ [(v, plists ps s); (p, PCell (length (cells ps)))])
               (fun x => if (x =? s)%nat then PCell (S (length (cells ps))) else plists ps x))).
Proof.
  intros cls ps s p v l H. unfold put. cbn [negb].
  rewrite (lookup_spec cls ps p l) by (auto; unfold plenty; pose proof (listed_short _ _ _ H); lia).
  destruct (found cls ps p l) as [d|] eqn:F.
  - eexists. split; [reflexivity|]. left. eauto.
  - eexists. split; [reflexivity|]. right. split; [reflexivity|].
    unfold cons, define. cbn [cells plists]. rewrite app_length, <- app_assoc. cbn [length app].
    rewrite Nat.add_1_r. reflexivity.
Qed.

Lemma put_allowed : forall cls allowed ps s p v, allowed s = true ->
  put cls allowed ps s p v = put cls (fun _ => true) ps s p v.
Proof. intros cls allowed ps s p v H. unfold put. now rewrite H. Qed.

Lemma new_list : forall ps s p v l, listed ps (plists ps s) l ->
  let ps' := MkP (cells ps ++ [(v, plists ps s); (p, PCell (length (cells ps)))])
                 (fun x => if (x =? s)%nat then PCell (S (length (cells ps))) else plists ps x) in
  listed ps' (plists ps' s) (S (length (cells ps)) :: length (cells ps) :: l) /\
  car ps' (S (length (cells ps))) = p /\ car ps' (length (cells ps)) = v.
Proof.
  intros ps s p v l H ps'. set (N := length (cells ps)).
  assert (E0 : nth N (cells ps') (PNil, PNil) = (v, plists ps s)).
  { unfold ps', N. cbn [cells]. rewrite app_nth2 by lia. now rewrite Nat.sub_diag. }
  assert (E1 : nth (S N) (cells ps') (PNil, PNil) = (p, PCell N)).
  { unfold ps', N. cbn [cells]. rewrite app_nth2 by lia.
    replace (S (length (cells ps)) - length (cells ps))%nat with 1%nat by lia. reflexivity. }
  split; [|unfold car; rewrite E0, E1; auto].
  replace (plists ps' s) with (PCell (S N)) by (unfold ps'; cbn [plists]; rewrite Nat.eqb_refl; reflexivity).
  assert (LN : length (cells ps') = S (S N)) by (unfold ps', N; cbn [cells]; rewrite app_length; cbn; lia).
  constructor; [lia|]. unfold cdr at 1. rewrite E1. cbn [snd].
  constructor; [lia|]. unfold cdr at 1. rewrite E0. cbn [snd]. now apply listed_app.
Qed.

Lemma put_get : forall cls allowed ps s p v l, listed ps (plists ps s) l -> allowed s = true ->
  exists ps', put cls allowed ps s p v = (PRet v, ps') /\
    forall q, get cls ps' s q = if same_prop_dec cls p q then PRet v else get cls ps s q.
Proof.
  intros cls allowed ps s p v l H HA. rewrite (put_allowed _ _ _ _ _ _ HA).
  destruct (put_spec cls ps s p v l H) as (ps' & E & [(d & F & ->)|(F & ->)]);
    (eexists; split; [exact E|]); intros q.
  - rewrite (get_spec cls _ s q l) by (now apply listed_set_car).
    rewrite (get_spec cls ps s q l) by exact H.
    pose proof (listed_nodup _ _ _ H) as ND.
    destruct (found_in _ _ _ _ _ F) as (c & Hin & HS).
    assert (Hd : (d < length (cells ps))%nat).
    { apply pairs_in in Hin. eapply listed_bound; [exact H|tauto]. }
    rewrite found_set_car; auto.
    2:{ intros c' d' Hin' ->. destruct (pairs_apart l ND c d d d' Hin Hin') as [Q _]. congruence. }
    destruct (same_prop_dec cls p q) as [SP|NSP].
    + (* q finds the same cell *)
      assert (FQ : found cls ps q l = Some d).
      { rewrite <- F. unfold found. f_equal. apply find_ext_in. intros [c' d'] _. cbn [fst].
        destruct (prop_match cls (car ps c') p) eqn:E1.
        - apply prop_match_iff in E1. apply prop_match_iff. eapply same_prop_trans; eauto.
        - destruct (prop_match cls (car ps c') q) eqn:E2; auto. apply prop_match_iff in E2.
          assert (same_prop cls (car ps c') p) by (eapply same_prop_trans; [exact E2|now apply same_prop_sym]).
          apply prop_match_iff in H0. congruence. }
      rewrite FQ, car_set_car, Nat.eqb_refl by auto. reflexivity.
    + destruct (found cls ps q l) as [d'|] eqn:FQ; [|reflexivity].
      rewrite car_set_car by auto. destruct (Nat.eqb_spec d' d) as [->|]; [|reflexivity].
      exfalso. apply NSP. destruct (found_in _ _ _ _ _ FQ) as (c' & Hin' & HS').
      destruct (pairs_apart l ND c d c' d Hin Hin') as [_ Q]. specialize (Q eq_refl). subst c'.
      eapply same_prop_trans; [apply same_prop_sym; exact HS|exact HS'].
  - destruct (new_list ps s p v l H) as (HL & C1 & C2).
    rewrite (get_spec cls _ s q _ HL). rewrite (get_spec cls ps s q l H).
    set (ps' := MkP _ _) in *. unfold found at 1. cbn [pairs find fst]. rewrite C1.
    destruct (prop_match cls p q) eqn:E1.
    + cbn [option_map snd]. rewrite C2. apply prop_match_iff in E1.
      destruct (same_prop_dec cls p q); [reflexivity|contradiction].
    + destruct (same_prop_dec cls p q) as [SP|NSP]; [apply prop_match_iff in SP; congruence|].
      change (option_map snd (find (fun x => prop_match cls (car ps' (fst x)) q) (pairs l)))
        with (found cls ps' q l).
      unfold ps'. rewrite (found_app _ _ _ _ _ _ _ _ H).
      destruct (found cls ps q l) as [d|] eqn:FQ; [|reflexivity].
      destruct (found_in _ _ _ _ _ FQ) as (c & Hin & _). apply pairs_in in Hin.
      f_equal. apply cell_app. eapply listed_bound; [exact H|tauto].
Qed.

Lemma put_other : forall cls allowed ps s p v l s' l',
  listed ps (plists ps s) l -> listed ps (plists ps s') l' ->
  (forall c, In c l -> In c l' -> False) -> allowed s = true -> s' <> s ->
  exists ps', put cls allowed ps s p v = (PRet v, ps') /\ forall q, get cls ps' s' q = get cls ps s' q.
Proof.
  intros cls allowed ps s p v l s' l' H H' HD HA HN. rewrite (put_allowed _ _ _ _ _ _ HA).
  destruct (put_spec cls ps s p v l H) as (ps' & E & [(d & F & ->)|(F & ->)]);
    (eexists; split; [exact E|]); intros q; rewrite (get_spec cls ps s' q l' H').
  - rewrite (get_spec cls _ s' q l') by (now apply listed_set_car).
    destruct (found_in _ _ _ _ _ F) as (c & Hin & _). apply pairs_in in Hin.
    assert (Hd : (d < length (cells ps))%nat) by (eapply listed_bound; [exact H|tauto]).
    rewrite found_set_car; auto.
    + destruct (found cls ps q l') as [d'|] eqn:FQ; [|reflexivity].
      rewrite car_set_car by auto. destruct (Nat.eqb_spec d' d) as [->|]; [|reflexivity].
      exfalso. destruct (found_in _ _ _ _ _ FQ) as (c' & Hin' & _). apply pairs_in in Hin'.
      eapply HD; [exact (proj2 Hin)|exact (proj2 Hin')].
    + intros c' d' Hin' ->. apply pairs_in in Hin'. eapply HD; [exact (proj2 Hin)|exact (proj1 Hin')].
  - set (ps' := MkP _ _) in *.
    assert (EP : plists ps' s' = plists ps s').
    { unfold ps'. cbn [plists]. destruct (Nat.eqb_spec s' s); [contradiction|reflexivity]. }
    assert (HL : listed ps' (plists ps' s') l') by (rewrite EP; unfold ps'; now apply listed_app).
    rewrite (get_spec cls ps' s' q l' HL). unfold ps'. rewrite (found_app _ _ _ _ _ _ _ _ H').
    destruct (found cls ps q l') as [d|] eqn:FQ; [|reflexivity].
    destruct (found_in _ _ _ _ _ FQ) as (c & Hin & _). apply pairs_in in Hin.
    f_equal. apply cell_app. eapply listed_bound; [exact H'|tauto].
Qed.

(** *** Only put *)

Definition apart (ps : pstate) (L : nat -> list nat) : Prop :=
  (forall s, listed ps (plists ps s) (L s)) /\
  (forall s s' c, s <> s' -> In c (L s) -> In c (L s') -> False).

Lemma apart_put : forall cls ps L s p v, apart ps L ->
  exists L', apart (snd (put cls (fun _ => true) ps s p v)) L'.
Proof.
  intros cls ps L s p v [HL HD].
  destruct (put_spec cls ps s p v (L s) (HL s)) as (ps' & E & [(d & F & ->)|(F & ->)]); rewrite E; cbn [snd].
  - exists L. split; auto. intros x. apply listed_set_car. apply HL.
  - set (ps' := MkP _ _). set (N := length (cells ps)) in *.
    destruct (new_list ps s p v (L s) (HL s)) as (HN & _ & _). fold N in HN. fold ps' in HN.
    exists (fun x => if (x =? s)%nat then S N :: N :: L s else L x). split.
    + intros x. destruct (Nat.eqb_spec x s) as [->|NE]; [exact HN|].
      assert (EP : plists ps' x = plists ps x).
      { unfold ps'. cbn [plists]. destruct (Nat.eqb_spec x s); [contradiction|reflexivity]. }
      rewrite EP. unfold ps'. apply listed_app. apply HL.
    + assert (B : forall x c, In c (L x) -> (c < N)%nat) by (intros x c Hc; eapply listed_bound; [apply HL|exact Hc]).
      intros x x' c NE H1 H2.
      destruct (Nat.eqb_spec x s) as [->|N1], (Nat.eqb_spec x' s) as [->|N2]; try congruence.
      * pose proof (B _ _ H2). destruct H1 as [<-|[<-|H1]]; try lia. eapply HD; eauto.
      * pose proof (B _ _ H1). destruct H2 as [<-|[<-|H2]]; try lia. eapply HD; eauto.
      * eapply HD; [exact NE|exact H1|exact H2].
Qed.

Lemma puts_apart : forall cls l, exists L, apart (puts cls l) L.
Proof.
  intros cls l. induction l as [|[[s p] v] l [L HL]].
  - exists (fun _ => []). split; [|auto]. intros s. constructor. intros c. discriminate.
  - cbn [puts]. eapply apart_put; eauto.
Qed.

Lemma history : forall cls l s p, exists v, newest cls l s p v /\ get cls (puts cls l) s p = PRet v.
Proof.
  intros cls l s p. induction l as [|[[s' p'] v'] l (v & N & G)].
  - exists PNil. split; reflexivity.
  - cbn [puts newest]. destruct (puts_apart cls l) as (L & HL & HD).
    destruct (Nat.eq_dec s s') as [->|NE].
    + destruct (put_get cls (fun _ => true) (puts cls l) s' p' v' (L s') (HL s') eq_refl) as (ps' & E & H).
      rewrite E. cbn [snd]. rewrite H. destruct (same_prop_dec cls p' p) as [SP|NSP].
      * exists v'. split; auto.
      * exists v. split; auto. right. split; auto. tauto.
    + destruct (put_other cls (fun _ => true) (puts cls l) s' p' v' (L s') s (L s) (HL s') (HL s)) as (ps' & E & H);
        auto.
      { intros c Hc Hc'. eapply HD; [exact NE|exact Hc'|exact Hc]. }
      rewrite E. cbn [snd]. rewrite H. exists v. split; auto. right. split; auto. tauto.
Qed.

Lemma newest_one : forall cls l s p v v', newest cls l s p v -> newest cls l s p v' -> v = v'.
Proof.
  intros cls l s p v v'. induction l as [|[[s' p'] w] l IH]; cbn; intros H H'; [congruence|].
  destruct H as [(A & B & ->)|[A B]], H' as [(A' & B' & ->)|[A' B']]; auto; tauto.
Qed.

(** ** gensym *)

Lemma value_zeros : forall k l, num_of_digits 10 0 (repeat 48 k ++ l) = num_of_digits 10 0 l.
Proof.
  intros k l. induction k as [|k IH]; [reflexivity|]. cbn [repeat app].
  unfold num_of_digits in *. cbn [fold_left]. change (0 * 10 + char_digit 48) with 0. exact IH.
Qed.

Lemma print04_inj : forall i j, 0 <= i -> 0 <= j -> print04 i = print04 j -> i = j.
Proof.
  intros i j Hi Hj H. unfold print04 in H.
  destruct (Z.ltb_spec i 0); [lia|]. destruct (Z.ltb_spec j 0); [lia|]. unfold pad4 in H.
  destruct (digits_spec 10 i ltac:(lia) Hi) as (_ & _ & A).
  destruct (digits_spec 10 j ltac:(lia) Hj) as (_ & _ & B).
  rewrite <- A, <- B. rewrite <- (value_zeros (4 - length (digits 10 i)) (digits 10 i)).
  rewrite H. apply value_zeros.
Qed.

Lemma gensym_step : forall c, 0 <= c < 2 ^ 31 - 1 -> gensym c = (71 :: print04 (c + 1), c + 1).
Proof.
  intros c H. unfold gensym.
  assert (E : wrap32 (c + 1) = c + 1).
  { unfold wrap32, wrap. change (2 ^ 32) with 4294967296. change (2 ^ (32 - 1)) with 2147483648.
    change (2 ^ 31) with 2147483648 in H. rewrite Z.mod_small by lia. lia. }
  now rewrite E.
Qed.

Lemma gensyms_spec : forall k c, 0 <= c -> c + Z.of_nat k <= 2 ^ 31 - 1 ->
  gensyms k c = map (fun i => 71 :: print04 (c + Z.of_nat i)) (seq 1 k).
Proof.
  induction k as [|k IH]; intros c Hc H; [reflexivity|].
  cbn [gensyms]. rewrite gensym_step by lia. rewrite IH by lia.
  cbn [seq map]. f_equal. rewrite <- (seq_shift k 1), map_map. apply map_ext. intros i.
  do 2 f_equal. lia.
Qed.

Lemma gensyms_nodup : forall k c, 0 <= c -> c + Z.of_nat k <= 2 ^ 31 - 1 -> NoDup (gensyms k c).
Proof.
  intros k c Hc H. rewrite gensyms_spec by auto.
  assert (G : forall l, NoDup l -> NoDup (map (fun i => 71 :: print04 (c + Z.of_nat i)) l)).
  { induction l as [|x l IH]; intros HN; cbn; constructor; inversion HN; subst; auto.
    rewrite in_map_iff. intros (y & E & Hy). injection E as E. apply print04_inj in E; try lia.
    assert (y = x) by lia. congruence. }
  apply G. apply seq_NoDup.
Qed.
