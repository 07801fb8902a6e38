From Coq Require Import List ZArith Lia.
Import ListNotations.
From Verif Require Import Mapping_Model Mapping_Spec.

Lemma nreverse_onto_list : forall l acc,
  nreverse_onto (of_list acc) (of_list l) = of_list (rev l ++ acc).
Proof.
  induction l as [|x l IH]; intros acc; [reflexivity|].
  cbn [of_list nreverse_onto rev]. change (Cons x (of_list acc)) with (of_list (x :: acc)).
  rewrite IH, <- app_assoc. reflexivity.
Qed.

Lemma nreverse_list : forall l, nreverse (of_list l) = of_list (rev l).
Proof.
  intros l. unfold nreverse. change Nil with (of_list []) at 1.
  rewrite nreverse_onto_list. now rewrite app_nil_r.
Qed.

Section Calls.
  Context {St : Type}.
  Implicit Types f : St -> val -> St * outcome.

  (** every call ends in one of the two ways *)
  Lemma calls_or_leaves : forall f l s,
    (exists s' vs, calls f s l s' vs) \/ (exists s' e, leaves f s l s' e).
  Proof.
    intros f. induction l as [|x l IH]; intros s.
    - left. exists s, []. constructor.
    - destruct (f s x) as [s1 o] eqn:E. destruct o as [v|v|n].
      + destruct (IH s1) as [(s' & vs & C)|(s' & e & N & pre & y & post & s2 & vs & -> & C & F)].
        * left. exists s', (v :: vs). now apply COne with s1.
        * right. exists s', e. split; [exact N|]. exists (x :: pre), y, post, s2, (v :: vs).
          split; [reflexivity|]. split; [now apply COne with s1 | exact F].
      + right. exists s1, (Thrown v). split; [discriminate|].
        exists [], x, l, s, []. split; [reflexivity|]. split; [constructor | exact E].
      + right. exists s1, (Left_by n). split; [discriminate|].
        exists [], x, l, s, []. split; [reflexivity|]. split; [constructor | exact E].
  Qed.

  Lemma mapc_calls : forall f s l s' vs, calls f s l s' vs -> mapc St f s (of_list l) = (s', Ret Nil).
  Proof.
    intros f s l s' vs C. induction C as [s|s x s1 v l s2 vs E C IH]; [reflexivity|].
    cbn [of_list mapc]. rewrite E. exact IH.
  Qed.

  Lemma mapc_leaves : forall f s l s' e, leaves f s l s' e -> mapc St f s (of_list l) = (s', e).
  Proof.
    intros f s l s' e (N & pre & x & post & s1 & vs & -> & C & F).
    induction C as [s|s y s1 v l s2 vs E C IH]; cbn [of_list mapc app].
    - rewrite F. destruct e as [v|v|n]; [now destruct (N v)|reflexivity|reflexivity].
    - rewrite E. now apply IH.
  Qed.

  Lemma mapcar_calls : forall f s l s' vs acc, calls f s l s' vs ->
    mapcar_loop St f s (of_list acc) (of_list l) = (s', Ret (of_list (rev acc ++ vs))).
  Proof.
    intros f s l s' vs acc C. revert acc.
    induction C as [s|s x s1 v l s2 vs E C IH]; intros acc; cbn [of_list mapcar_loop].
    - now rewrite nreverse_list, app_nil_r.
    - rewrite E. change (Cons v (of_list acc)) with (of_list (v :: acc)). rewrite IH.
      cbn [rev]. now rewrite <- app_assoc.
  Qed.

  Lemma mapcar_leaves : forall f s l s' e res, leaves f s l s' e ->
    mapcar_loop St f s res (of_list l) = (s', e).
  Proof.
    intros f s l s' e res (N & pre & x & post & s1 & vs & -> & C & F). revert res.
    induction C as [s|s y s1 v l s2 vs E C IH]; intros res; cbn [of_list mapcar_loop app].
    - rewrite F. destruct e as [v|v|n]; [now destruct (N v)|reflexivity|reflexivity].
    - rewrite E. now apply IH.
  Qed.

  Lemma filter_calls : forall f s l s' vs r acc, calls f s l s' vs -> chosen true l vs r ->
    filter_loop St f s (of_list acc) (of_list l) = (s', Ret (of_list (rev acc ++ r))).
  Proof.
    intros f s l s' vs r acc C. revert r acc.
    induction C as [s|s x s1 v l s2 vs E C IH]; intros r acc H; cbn [of_list filter_loop].
    - inversion H; subst. now rewrite nreverse_list, app_nil_r.
    - rewrite E. inversion H as [|? ? ? ? r' T H'|? ? ? ? ? T H']; subst.
      + assert (V : v <> Nil) by (now apply T).
        change (Cons x (of_list acc)) with (of_list (x :: acc)).
        destruct v; [now destruct V| |]; rewrite (IH r' (x :: acc) H'); cbn [rev];
          now rewrite <- app_assoc.
      + destruct v; [now apply IH| |]; exfalso; assert (Q : true = false) by (apply T; discriminate);
          discriminate Q.
  Qed.

  Lemma filter_leaves : forall f s l s' e res, leaves f s l s' e ->
    filter_loop St f s res (of_list l) = (s', e).
  Proof.
    intros f s l s' e res (N & pre & x & post & s1 & vs & -> & C & F). revert res.
    induction C as [s|s y s1 v l s2 vs E C IH]; intros res; cbn [of_list filter_loop app].
    - rewrite F. destruct e as [v|v|n]; [now destruct (N v)|reflexivity|reflexivity].
    - rewrite E. destruct v; now apply IH.
  Qed.

  Lemma remove_calls : forall f s l s' vs r acc, calls f s l s' vs -> chosen false l vs r ->
    remove_loop St f s (of_list l) (of_list acc) = (s', Ret (of_list (rev acc ++ r))).
  Proof.
    intros f s l s' vs r acc C. revert r acc.
    induction C as [s|s x s1 v l s2 vs E C IH]; intros r acc H; cbn [of_list remove_loop].
    - inversion H; subst. now rewrite nreverse_list, app_nil_r.
    - rewrite E. inversion H as [|? ? ? ? r' T H'|? ? ? ? ? T H']; subst.
      + change (Cons x (of_list acc)) with (of_list (x :: acc)).
        destruct v; [rewrite (IH r' (x :: acc) H'); cbn [rev]; now rewrite <- app_assoc| |];
          exfalso; assert (Q : false = true) by (apply T; discriminate); discriminate Q.
      + assert (V : v <> Nil) by (now apply T).
        destruct v; [now destruct V| |]; now apply IH.
  Qed.

  Lemma remove_leaves : forall f s l s' e res, leaves f s l s' e ->
    remove_loop St f s (of_list l) res = (s', e).
  Proof.
    intros f s l s' e res (N & pre & x & post & s1 & vs & -> & C & F). revert res.
    induction C as [s|s y s1 v l s2 vs E C IH]; intros res; cbn [of_list remove_loop app].
    - rewrite F. destruct e as [v|v|n]; [now destruct (N v)|reflexivity|reflexivity].
    - rewrite E. destruct v; now apply IH.
  Qed.

  Lemma remove_not_filter : forall f l s acc,
    remove_loop St (negated St f) s (of_list l) acc = filter_loop St f s acc (of_list l).
  Proof.
    intros f. induction l as [|x l IH]; intros s acc; [reflexivity|].
    cbn [of_list remove_loop filter_loop]. unfold negated at 1.
    destruct (f s x) as [s1 [v|v|n]]; [|reflexivity|reflexivity].
    destruct v; apply IH.
  Qed.

  Lemma member_none : forall f s l s' vs, calls f s l s' vs -> (forall v, In v vs -> v = Nil) ->
    member_if St f s (of_list l) = (s', Ret Nil).
  Proof.
    intros f s l s' vs C. induction C as [s|s x s1 v l s2 vs E C IH]; intros A; [reflexivity|].
    cbn [of_list member_if]. rewrite E. rewrite (A v (or_introl eq_refl)).
    apply IH. intros w I. apply A. now right.
  Qed.

  Lemma member_some : forall f s pre s1 vs x post s2 v, calls f s pre s1 vs ->
    (forall v, In v vs -> v = Nil) -> f s1 x = (s2, Ret v) -> v <> Nil ->
    member_if St f s (of_list (pre ++ x :: post)) = (s2, Ret (of_list (x :: post))).
  Proof.
    intros f s pre s1 vs x post s2 v C.
    induction C as [s|s y s1 w l s3 vs E C IH]; intros A F N; cbn [of_list member_if app].
    - rewrite F. destruct v; [now destruct N|reflexivity|reflexivity].
    - rewrite E. rewrite (A w (or_introl eq_refl)). apply IH; [|exact F|exact N].
      intros u I. apply A. now right.
  Qed.

  Lemma assoc_none : forall f s l s' vs, calls f s (map car l) s' vs ->
    (forall v, In v vs -> v = Nil) -> assoc_regexp St f s (of_list l) = (s', Ret Nil).
  Proof.
    intros f s l s' vs C A. unfold assoc_regexp. erewrite mapc_calls; [reflexivity|].
    instantiate (1 := vs). revert s C A. revert vs.
    induction l as [|x l IH]; intros vs s C A; cbn [map] in C; inversion C; subst.
    - constructor.
    - econstructor; [|apply IH; [eassumption|]].
      + match goal with H : f s (car x) = _ |- _ => rewrite H end.
        rewrite (A v (or_introl eq_refl)). reflexivity.
      + intros w I. apply A. now right.
  Qed.

  Lemma assoc_some : forall f pre s s1 vs x post s2 v, calls f s (map car pre) s1 vs ->
    (forall v, In v vs -> v = Nil) -> f s1 (car x) = (s2, Ret v) -> v <> Nil ->
    assoc_regexp St f s (of_list (pre ++ x :: post)) = (s2, Ret x).
  Proof.
    intros f pre s s1 vs x post s2 v C A F N. unfold assoc_regexp.
    erewrite mapc_leaves with (e := Thrown x) (s' := s2); [reflexivity|].
    split; [discriminate|]. exists pre, x, post, s1, vs. split; [reflexivity|]. split.
    - revert s C A. revert vs.
      induction pre as [|y l IH]; intros vs s C A; cbn [map] in C; inversion C; subst.
      + constructor.
      + econstructor; [|apply IH; [eassumption|]].
        * match goal with H : f s (car y) = _ |- _ => rewrite H end.
          rewrite (A v0 (or_introl eq_refl)). reflexivity.
        * intros w I. apply A. now right.
    - cbv beta. rewrite F. destruct v; [now destruct N|reflexivity|reflexivity].
  Qed.
End Calls.
