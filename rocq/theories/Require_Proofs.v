(** Proofs for Require_Props: nothing is taken back, loads happen once. *)

From Coq Require Import List Arith Bool Lia.
Import ListNotations.
Require Import Verif.Require_Model Verif.Require_Spec.

Lemma memq_in f l : memq f l = true <-> In f l.
Proof.
  unfold memq. rewrite existsb_exists. split.
  - intros (x & I & E). apply Nat.eqb_eq in E. subst. exact I.
  - intros I. exists f. split; [exact I|apply Nat.eqb_refl].
Qed.
Lemma memq_not f l : memq f l = false <-> ~ In f l.
Proof. rewrite <- memq_in. destruct (memq f l); split; congruence. Qed.

(** * put *)
Lemma set_nth_length l : forall s x, length (set_nth l s x) = length l.
Proof. induction l as [|y l IH]; intros [|s] x; cbn; auto. Qed.
Lemma set_nth_same l d : forall s x, s < length l -> nth s (set_nth l s x) d = x.
Proof. induction l as [|y l IH]; intros [|s] x H; cbn in *; try lia; [reflexivity|]. apply IH. lia. Qed.
Lemma set_nth_other l d : forall s t x, t <> s -> nth t (set_nth l s x) d = nth t l d.
Proof. induction l as [|y l IH]; intros [|s] [|t] x H; cbn; try reflexivity; try lia. apply IH. lia. Qed.
Lemma put_length w s x : length (structs (put w s x)) = length (structs w).
Proof. apply set_nth_length. Qed.
Lemma put_length_ge w s x : length (structs w) <= length (structs (put w s x)).
Proof. rewrite put_length. lia. Qed.
Lemma get_put_same w s x : s < length (structs w) -> get (put w s x) s = x.
Proof. intros H. apply set_nth_same. exact H. Qed.
Lemma get_put_other w s x t : t <> s -> t < length (structs w) -> get (put w s x) t = get w t.
Proof. intros D H. apply set_nth_other. exact D. Qed.

(** * Nothing is taken back *)
Definition grows (w w' : world) : Prop :=
  length (structs w) <= length (structs w') /\
  (forall s, s < length (structs w) -> incl (features (get w s)) (features (get w' s)) /\ incl (imports (get w s)) (imports (get w' s))) /\
  exists t, trace w' = t ++ trace w.
Definition named (w w' : world) : Prop := forall f, get_structure w f <> None -> get_structure w' f <> None.

Lemma grows_refl w : grows w w.
Proof. split; [lia|]. split; [split; apply incl_refl|exists []; reflexivity]. Qed.
Lemma grows_trans a b c : grows a b -> grows b c -> grows a c.
Proof.
  intros (L1 & F1 & t1 & E1) (L2 & F2 & t2 & E2). split; [lia|]. split.
  - intros s H. destruct (F1 s H) as [A B]. destruct (F2 s) as [C D]; [lia|]. split; eapply incl_tran; eauto.
  - exists (t2 ++ t1). rewrite E2, E1, app_assoc. reflexivity.
Qed.
Lemma named_refl w : named w w.
Proof. intros f H; exact H. Qed.
Lemma named_trans a b c : named a b -> named b c -> named a c.
Proof. intros A B f H. auto. Qed.
Lemma put_names w s x f : get_structure (put w s x) f = get_structure w f.
Proof. reflexivity. Qed.
Lemma grows_put w s x : incl (features (get w s)) (features x) -> incl (imports (get w s)) (imports x) -> grows w (put w s x).
Proof.
  intros A B. split; [apply put_length_ge|]. split; [|exists []; reflexivity].
  intros t H. destruct (Nat.eq_dec t s) as [->|D]; [rewrite get_put_same by exact H; auto|].
  rewrite get_put_other by auto. split; apply incl_refl.
Qed.
Lemma grows_provide w cur f : grows w (provide w cur f).
Proof.
  apply grows_put; cbn; [|apply incl_refl]. destruct (memq f (features (get w cur))); [apply incl_refl|apply incl_tl, incl_refl].
Qed.
Lemma grows_import w cur f : grows w (import w cur f).
Proof. apply grows_put; cbn; [apply incl_refl|apply incl_tl, incl_refl]. Qed.
Lemma grows_access w cur f : grows w (make_accessible w cur f).
Proof. apply grows_put; cbn; apply incl_refl. Qed.
Lemma grows_note w e : grows w (note w e).
Proof. split; [cbn; lia|]. split; [split; apply incl_refl|exists [e]; reflexivity]. Qed.
Lemma grows_bind w f r : grows w (bind_name w f r).
Proof. split; [cbn; lia|]. split; [split; apply incl_refl|exists []; reflexivity]. Qed.
Lemma grows_name w s nm : grows w (name_structure w s nm).
Proof.
  unfold name_structure. destruct nm as [f|].
  - destruct (sname (get (bind_name w f (Some s)) s)); [apply grows_bind|].
    eapply grows_trans; [apply grows_bind|]. apply grows_put; cbn; apply incl_refl.
  - destruct (sname (get w s)); [apply grows_bind|apply grows_refl].
Qed.
Lemma name_bound w s f g : get_structure (name_structure w s (Some f)) g = if Nat.eqb g f then Some s else get_structure w g.
Proof. unfold name_structure. destruct (sname (get (bind_name w f (Some s)) s)); reflexivity. Qed.
Lemma named_name w s f : named w (name_structure w s (Some f)).
Proof. intros g H. rewrite name_bound. destruct (Nat.eqb g f); [discriminate|exact H]. Qed.

Definition fresh (w : world) (nm : option name) : world :=
  let w1 := mkw (structs w ++ [mks nm [] [] []]) (names w) (trace w) in
  match nm with Some _ => name_structure w1 (length (structs w)) nm | None => w1 end.
Lemma grows_alloc w x : grows w (mkw (structs w ++ [x]) (names w) (trace w)).
Proof.
  split; [cbn; rewrite app_length; cbn; lia|]. split; [|exists []; reflexivity].
  intros s H. unfold get. cbn [structs]. rewrite app_nth1 by exact H. split; apply incl_refl.
Qed.
Lemma grows_fresh w nm : grows w (fresh w nm).
Proof. unfold fresh. destruct nm; [eapply grows_trans; [apply grows_alloc|apply grows_name]|apply grows_alloc]. Qed.
Lemma named_fresh w nm : named w (fresh w nm).
Proof. unfold fresh. destruct nm as [f|]; [|intros g H; exact H]. intros g H. apply named_name. exact H. Qed.
Lemma get_fresh w nm t : t < length (structs w) -> get (fresh w nm) t = get w t.
Proof.
  intros H. unfold fresh, name_structure, get, bind_name. cbn [structs sname put]. destruct nm as [f|].
  - rewrite app_nth2, Nat.sub_diag by lia. cbn. rewrite app_nth1 by exact H. reflexivity.
  - cbn. rewrite app_nth1 by exact H. reflexivity.
Qed.
Lemma length_fresh w nm : length (structs (fresh w nm)) = S (length (structs w)).
Proof.
  unfold fresh, name_structure, get, bind_name. cbn [structs sname]. destruct nm as [f|].
  - rewrite app_nth2, Nat.sub_diag by lia. cbn. rewrite app_length. cbn. lia.
  - cbn. rewrite app_length. cbn. lia.
Qed.
Lemma trace_fresh w nm : trace (fresh w nm) = trace w.
Proof. unfold fresh, name_structure. destruct nm; [destruct (sname _)|]; reflexivity. Qed.
Lemma fresh_bound w f : get_structure (fresh w (Some f)) f = Some (length (structs w)).
Proof. unfold fresh. rewrite name_bound, Nat.eqb_refl. reflexivity. Qed.

Ltac nmd := let g := fresh in let H := fresh in intros g H; exact H.
Section Run.
  Variable files : name -> option (list form).
  Variable root : nat.
  Notation run := (run files root).

  Definition good (o : outcome) (w : world) : Prop :=
    match o with Done _ w' => grows w w' /\ named w w' | Error w' => grows w w' | OutOfFuel w' => grows w w' end.
  Lemma good_from o w0 w : grows w0 w -> named w0 w -> good o w -> good o w0.
  Proof.
    intros G N. destruct o as [v w'|w'|w']; cbn.
    - intros [A B]. split; [eapply grows_trans|eapply named_trans]; eauto.
    - apply grows_trans; auto.
    - apply grows_trans; auto.
  Qed.
  Lemma good_then o k w : good o w -> (forall v w', o = Done v w' -> good (k v w') w') -> good (andthen o k) w.
  Proof.
    intros A B. destruct o as [v w'|w'|w']; cbn; [|exact A|exact A].
    destruct A as [A1 A2]. eapply good_from; [exact A1|exact A2|apply B; reflexivity].
  Qed.
  Lemma good_done v w w' : grows w w' -> named w w' -> good (Done v w') w.
  Proof. cbn. auto. Qed.

  Section Parts.
    Variable r : world -> nat -> list form -> value -> outcome.
    Hypothesis R : forall w cur l v, good (r w cur l v) w.
    Lemma load_good w into f : good (load files r w into f) w.
    Proof.
      unfold load. destruct (files f) as [l|]; [|apply grows_refl].
      eapply good_from; [apply grows_note| |apply R]. nmd.
    Qed.
    Lemma intern_good w f : good (intern_structure files root r w f) w.
    Proof. unfold intern_structure. destruct (get_structure w f); [apply good_done; [apply grows_refl|nmd]|apply load_good]. Qed.
    Lemma require_good w cur f : good (require files r w cur f) w.
    Proof.
      unfold require. destruct (featurep w cur f); [apply good_done; [apply grows_refl|nmd]|].
      destruct (memq f (imports (get w cur))); [apply good_done; [apply grows_refl|nmd]|].
      destruct (get_structure w f).
      - apply good_done; [eapply grows_trans; [apply grows_import|apply grows_provide]|nmd].
      - apply good_then; [apply load_good|]. intros [|s] w' _.
        + apply good_done; [apply grows_refl|nmd].
        + apply good_done; [eapply grows_trans; [apply grows_name|eapply grows_trans; [apply grows_import|apply grows_provide]]|].
          exact (named_name w' s f).
    Qed.
    Lemma open_good cur l : forall w, good (open_structures files root r w cur l) w.
    Proof.
      induction l as [|f l IH]; intros w; cbn [open_structures]; [apply good_done; [apply grows_refl|nmd]|].
      destruct (memq f (imports (get w cur))); [apply IH|].
      apply good_then; [apply intern_good|]. intros [|s] w' _; [apply grows_refl|].
      eapply good_from; [apply (grows_import w' cur f)| |apply IH]. nmd.
    Qed.
    Lemma access_good cur l : forall w, good (access_structures files root r w cur l) w.
    Proof.
      induction l as [|f l IH]; intros w; cbn [access_structures]; [apply good_done; [apply grows_refl|nmd]|].
      destruct (memq f (accessible (get w cur))); [apply IH|].
      apply good_then; [apply intern_good|]. intros [|s] w' _; [apply grows_refl|].
      eapply good_from; [apply (grows_access w' cur f)| |apply IH]. nmd.
    Qed.
    Lemma make_good w nm h b : good (make_structure r w nm h b) w.
    Proof.
      unfold make_structure. fold (fresh w nm).
      assert (G : good (andthen (r (fresh w nm) (length (structs w)) h Other) (fun _ w' => r w' (length (structs w)) b Other)) (fresh w nm)).
      { apply good_then; [apply R|]. intros v w' _. apply R. }
      apply (good_from _ w (fresh w nm) (grows_fresh w nm) (named_fresh w nm)) in G.
      destruct (andthen _ _) as [v w'|w'|w']; [exact G| |exact G].
      cbn [good] in *. eapply grows_trans; [exact G|apply grows_name].
    Qed.
  End Parts.

  Lemma run_good fuel : forall w cur l v, good (run fuel w cur l v) w.
  Proof.
    induction fuel as [|fuel IH]; intros w cur l v; cbn [Require_Model.run]; [apply grows_refl|].
    destruct l as [|x l]; [apply good_done; [apply grows_refl|nmd]|].
    apply good_then; [|intros; apply IH]. destruct x as [f|f|l'|l'|a b|nm h b|n].
    - apply good_done; [apply grows_provide|nmd].
    - apply require_good, IH.
    - apply open_good, IH.
    - apply access_good, IH.
    - destruct (get_structure w a) as [s|]; [|apply grows_refl]. apply good_done; [apply grows_name|apply named_name].
    - apply make_good, IH.
    - apply good_done; [apply grows_note|nmd].
  Qed.
  Lemma run_done fuel w cur l v v' w' : run fuel w cur l v = Done v' w' -> grows w w' /\ named w w'.
  Proof. intros H. assert (G := run_good fuel w cur l v). rewrite H in G. exact G. Qed.

  (** * At most once *)
  Hypothesis P : polite files.

  Definition settled (w : world) : Prop :=
    loaded_once files (trace w) /\
    forall f i, In (f, i) (loads (trace w)) ->
      i < length (structs w) /\
      (is_module files f -> get_structure w f <> None) /\ (is_bare files f -> In f (features (get w i))).
  Definition ok (o : outcome) : Prop :=
    match o with Done _ w => settled w | Error w => loaded_once files (trace w) | OutOfFuel w => loaded_once files (trace w) end.

  Lemma settled_mono w w' : settled w -> grows w w' -> named w w' -> trace w' = trace w -> settled w'.
  Proof.
    intros [O S] (L & F & _) N T. split; [rewrite T; exact O|]. rewrite T. intros f i I. destruct (S f i I) as (A & B & C).
    split; [lia|]. split; [intros M; apply N; auto|]. intros M. apply (proj1 (F i A)). auto.
  Qed.
  Lemma not_both f : is_module files f -> is_bare files f -> False.
  Proof. intros (h & b & E) (l & E'). congruence. Qed.

  (** The start of a load leaves the world settled, or fuel has run out *)
  Lemma loads_note w f i : loads (trace (note w (Loaded f i))) = (f, i) :: loads (trace w).
  Proof. reflexivity. Qed.
  Lemma once_note w f i : loaded_once files (trace w) -> ~ In (f, i) (loads (trace w)) ->
    (is_module files f -> forall j, ~ In (f, j) (loads (trace w))) -> loaded_once files (trace (note w (Loaded f i))).
  Proof.
    intros [N U] A B. split; rewrite loads_note.
    - constructor; assumption.
    - intros g a b M [E|I] [E'|I'].
      + congruence.
      + injection E as <- <-. exfalso. exact (B M _ I').
      + injection E' as <- <-. exfalso. exact (B M _ I).
      + eapply U; eauto.
  Qed.

  Section Level.
    Variable fuel : nat.
    Hypothesis IH : forall k w cur l v, k <= fuel -> settled w -> cur < length (structs w) -> root < length (structs w) ->
      Forall (clean files) l -> ok (run k w cur l v).

    Lemma make_ok k w nm h b : k <= fuel -> root < length (structs w) -> Forall (clean files) h -> Forall (clean files) b ->
      settled (fresh w nm) -> ok (make_structure (run k) w nm h b).
    Proof.
      intros K RT Ch Cb S. unfold make_structure. fold (fresh w nm).
      assert (O : ok (andthen (run k (fresh w nm) (length (structs w)) h Other) (fun _ w' => run k w' (length (structs w)) b Other))).
      { assert (A := IH k (fresh w nm) (length (structs w)) h Other K S).
        rewrite length_fresh in A. specialize (A ltac:(lia) ltac:(lia) Ch).
        destruct (run k (fresh w nm) (length (structs w)) h Other) as [v w'|w'|w'] eqn:E; cbn in *; [|exact A|exact A].
        apply run_done in E as [(L & _) _]. rewrite length_fresh in L. apply IH; auto; lia. }
      destruct (andthen _ _) as [v w'|w'|w']; cbn in *; [exact O| |exact O].
      unfold name_structure. destruct (sname (get w' (length (structs w)))); exact O.
    Qed.
    Lemma fresh_settled w nm : settled w -> settled (fresh w nm).
    Proof. intros S. eapply settled_mono; [exact S|apply grows_fresh|apply named_fresh|apply trace_fresh]. Qed.

    Lemma load_module_ok k w into f : k <= fuel -> settled w -> into < length (structs w) -> root < length (structs w) ->
      is_module files f -> get_structure w f = None -> ok (load files (run k) w into f).
    Proof.
      intros K S CU RT (h & b & E) G. unfold load. rewrite E.
      assert (C : clean files (Structure (Some f) h b)).
      { destruct (P f _ E) as [_ C]. inversion C; assumption. }
      inversion C as [| | | | |nm h' b' Ch Cb|]; subst.
      assert (M : is_module files f) by (exists h, b; exact E).
      assert (ABS : forall j, ~ In (f, j) (loads (trace w))).
      { intros j I. destruct S as [_ S]. destruct (S f j I) as (_ & Q & _). apply (Q M). exact G. }
      assert (ON : loaded_once files (trace (note w (Loaded f into)))).
      { apply once_note; [apply S|apply ABS|intros _; exact ABS]. }
      destruct k as [|k]; cbn [Require_Model.run]; [exact ON|].
      assert (SF : settled (fresh (note w (Loaded f into)) (Some f))).
      { destruct S as [O S]. split; [rewrite trace_fresh; exact ON|]. rewrite trace_fresh, loads_note.
        intros g j [I|I].
        - injection I as <- <-. split; [rewrite length_fresh; cbn; lia|]. split; [intros _; rewrite fresh_bound; discriminate|].
          intros B. exfalso. eapply not_both; eauto.
        - destruct (S g j I) as (A1 & A2 & A3). split; [rewrite length_fresh; cbn; lia|]. split.
          + intros M'. apply named_fresh. apply A2. exact M'.
          + intros B. rewrite get_fresh by (cbn; lia). apply A3. exact B. }
      assert (MK : ok (make_structure (run k) (note w (Loaded f into)) (Some f) h b)).
      { apply make_ok; auto; lia. }
      assert (LEN : match make_structure (run k) (note w (Loaded f into)) (Some f) h b with Done _ w' => length (structs w) <= length (structs w') | _ => True end).
      { assert (GD := make_good (run k) (run_good k) (note w (Loaded f into)) (Some f) h b).
        destruct (make_structure _ _ _ _ _) as [v w'|w'|w']; [|exact I|exact I]. destruct GD as [(L & _) _]. exact L. }
      destruct (make_structure _ _ _ _ _) as [v w'|w'|w']; cbn [andthen]; [|exact MK|exact MK].
      apply IH; [lia|exact MK|lia|lia|constructor].
    Qed.

    Lemma load_bare_ok k w into f : k <= fuel -> settled w -> into < length (structs w) -> root < length (structs w) ->
      is_bare files f -> ~ In f (features (get w into)) -> ok (load files (run k) w into f).
    Proof.
      intros K S CU RT (rest & E) G. unfold load. rewrite E.
      assert (C : Forall (clean files) rest).
      { destruct (P f _ E) as [_ C]. inversion C; assumption. }
      assert (B : is_bare files f) by (exists rest; exact E).
      assert (NM : ~ is_module files f) by (intros M; eapply not_both; eauto).
      assert (ON : loaded_once files (trace (note w (Loaded f into)))).
      { apply once_note; [apply S| |intros M; contradiction]. intros I. destruct S as [_ S]. destruct (S f into I) as (_ & _ & Q). auto. }
      destruct k as [|k]; cbn [Require_Model.run]; [exact ON|]. cbn [andthen].
      set (w1 := note w (Loaded f into)) in *.
      assert (L1 : length (structs (provide w1 into f)) = length (structs w)) by (unfold provide; rewrite put_length; reflexivity).
      apply IH; [lia| |rewrite L1; exact CU|rewrite L1; exact RT|exact C].
      destruct S as [O S]. split; [exact ON|]. change (trace (provide w1 into f)) with (trace w1). subst w1. rewrite loads_note.
      intros g j [I|I].
      - injection I as <- <-. split; [rewrite L1; exact CU|]. split; [contradiction|]. intros _.
        unfold provide. rewrite get_put_same by exact CU. cbn. destruct (memq f _) eqn:Q; [apply memq_in; exact Q|left; reflexivity].
      - destruct (S g j I) as (A1 & A2 & A3). split; [rewrite L1; exact A1|]. split; [exact A2|].
        intros B'. destruct (grows_provide (note w (Loaded f into)) into f) as (_ & F & _). apply (proj1 (F j A1)). apply A3. exact B'.
    Qed.

    Lemma intern_ok k w f : k <= fuel -> settled w -> root < length (structs w) -> is_module files f -> ok (intern_structure files root (run k) w f).
    Proof.
      intros K S RT M. unfold intern_structure. destruct (get_structure w f) eqn:G; [exact S|]. apply load_module_ok; auto.
    Qed.

    Lemma ok_then o k w : good o w -> ok o -> (forall v w', o = Done v w' -> settled w' -> length (structs w) <= length (structs w') -> ok (k v w')) -> ok (andthen o k).
    Proof.
      intros G O H. destruct o as [v w'|w'|w']; cbn; [|exact O|exact O]. apply H; auto. destruct G as [(L & _) _]. exact L.
    Qed.

    Lemma require_ok k w cur f : k <= fuel -> settled w -> cur < length (structs w) -> root < length (structs w) -> ok (require files (run k) w cur f).
    Proof.
      intros K S CU RT. unfold require. destruct (featurep w cur f) eqn:Fe; [exact S|].
      destruct (memq f (imports (get w cur))); [exact S|]. destruct (get_structure w f) eqn:G.
      - eapply settled_mono; [exact S|eapply grows_trans; [apply grows_import|apply grows_provide]|nmd|reflexivity].
      - assert (LO : ok (load files (run k) w cur f)).
        { destruct (files f) as [l|] eqn:E.
          - destruct (P f l E) as [[M|B] _]; [apply load_module_ok; auto|]. apply load_bare_ok; auto. unfold featurep in Fe. apply memq_not. exact Fe.
          - unfold load. rewrite E. apply S. }
        apply (ok_then _ _ w); [apply load_good, run_good|exact LO|]. intros [|s] w' _ S' L; [exact S'|].
        eapply settled_mono; [exact S'| |exact (named_name w' s f)|].
        + eapply grows_trans; [apply grows_name|eapply grows_trans; [apply grows_import|apply grows_provide]].
        + unfold name_structure. destruct (sname _); reflexivity.
    Qed.
    Lemma open_ok k cur l : k <= fuel -> Forall (is_module files) l -> forall w, settled w -> cur < length (structs w) -> root < length (structs w) ->
      ok (open_structures files root (run k) w cur l).
    Proof.
      intros K M. induction M as [|f l M1 M2 IHl]; intros w S CU RT; cbn [open_structures]; [exact S|].
      destruct (memq f (imports (get w cur))); [auto|].
      apply (ok_then _ _ w); [apply intern_good, run_good|apply intern_ok; auto|]. intros [|s] w' _ S' L; [apply S'|].
      assert (LI := put_length_ge w' cur (mks (sname (get w' cur)) (f :: imports (get w' cur)) (accessible (get w' cur)) (features (get w' cur)))).
      apply IHl; [|unfold import; lia|unfold import; lia]. eapply settled_mono; [exact S'|apply grows_import|nmd|reflexivity].
    Qed.
    Lemma access_ok k cur l : k <= fuel -> Forall (is_module files) l -> forall w, settled w -> cur < length (structs w) -> root < length (structs w) ->
      ok (access_structures files root (run k) w cur l).
    Proof.
      intros K M. induction M as [|f l M1 M2 IHl]; intros w S CU RT; cbn [access_structures]; [exact S|].
      destruct (memq f (accessible (get w cur))); [auto|].
      apply (ok_then _ _ w); [apply intern_good, run_good|apply intern_ok; auto|]. intros [|s] w' _ S' L; [apply S'|].
      assert (LI := put_length_ge w' cur (mks (sname (get w' cur)) (imports (get w' cur)) (f :: accessible (get w' cur)) (features (get w' cur)))).
      apply IHl; [|unfold make_accessible; lia|unfold make_accessible; lia]. eapply settled_mono; [exact S'|apply grows_access|nmd|reflexivity].
    Qed.

    Lemma step_ok w cur x l v : settled w -> cur < length (structs w) -> root < length (structs w) -> Forall (clean files) (x :: l) ->
      ok (run (S fuel) w cur (x :: l) v).
    Proof.
      intros S CU RT C. inversion C as [|x' l' Cx Cl]; subst. cbn [Require_Model.run].
      assert (NEXT : forall v w', settled w' -> length (structs w) <= length (structs w') -> ok (run fuel w' cur l v)).
      { intros v' w' S' L. apply IH; auto; lia. }
      destruct Cx as [f|f|l' M|l' M|a b|nm h b Ch Cb|n].
      - cbn [andthen]. apply NEXT; [|apply grows_provide]. eapply settled_mono; [exact S|apply grows_provide|nmd|reflexivity].
      - apply (ok_then _ _ w); [apply require_good, run_good|apply require_ok; auto|]. intros; apply NEXT; auto.
      - apply (ok_then _ _ w); [apply open_good, run_good|apply open_ok; auto|]. intros; apply NEXT; auto.
      - apply (ok_then _ _ w); [apply access_good, run_good|apply access_ok; auto|]. intros; apply NEXT; auto.
      - destruct (get_structure w a) as [s|]; cbn [andthen]; [|apply S]. apply NEXT; [|apply grows_name].
        eapply settled_mono; [exact S|apply grows_name|apply named_name|]. unfold name_structure. destruct (sname _); reflexivity.
      - apply (ok_then _ _ w); [apply make_good, run_good|apply make_ok; auto using fresh_settled|]. intros; apply NEXT; auto.
      - cbn [andthen]. apply NEXT; [|cbn; lia]. destruct S as [O S]. split; [exact O|]. intros f i I. exact (S f i I).
    Qed.
  End Level.

  Lemma run_ok fuel : forall w cur l v, settled w -> cur < length (structs w) -> root < length (structs w) ->
    Forall (clean files) l -> ok (run fuel w cur l v).
  Proof.
    induction fuel as [fuel IH] using lt_wf_ind. intros w cur l v S CU RT C.
    destruct fuel as [|fuel]; [apply S|]. destruct l as [|x l]; [exact S|].
    apply step_ok; auto. intros k w' cur' l' v' K. apply IH. lia.
  Qed.

  (** * Only the requiring structure changes *)
  Hypothesis modules_only : forall f, files f <> None -> is_module files f.
  Definition same (w w' : world) (s : nat) : Prop :=
    imports (get w' s) = imports (get w s) /\ accessible (get w' s) = accessible (get w s) /\ features (get w' s) = features (get w s).
  Definition framed (cur : nat) (w w' : world) : Prop :=
    length (structs w) <= length (structs w') /\ forall s, s < length (structs w) -> s <> cur -> same w w' s.
  Lemma same_refl w s : same w w s.
  Proof. repeat split. Qed.
  Lemma framed_refl cur w : framed cur w w.
  Proof. split; [lia|]. intros; apply same_refl. Qed.
  Lemma framed_trans cur a b c : framed cur a b -> framed cur b c -> framed cur a c.
  Proof.
    intros [L1 F1] [L2 F2]. split; [lia|]. intros s H D. destruct (F1 s H D) as (A1 & A2 & A3). destruct (F2 s ltac:(lia) D) as (B1 & B2 & B3).
    repeat split; congruence.
  Qed.
  Lemma framed_put cur w x : framed cur w (put w cur x).
  Proof. split; [apply put_length_ge|]. intros s H D. unfold same. rewrite get_put_other by auto. auto. Qed.
  Lemma framed_name cur w s nm : framed cur w (name_structure w s nm).
  Proof.
    split; [apply grows_name|]. intros t H D. unfold name_structure. destruct nm as [f|].
    - destruct (sname (get (bind_name w f (Some s)) s)); [repeat split|]. unfold same.
      destruct (Nat.eq_dec t s) as [->|N]; [rewrite get_put_same by exact H; auto|rewrite get_put_other by auto; auto].
    - destruct (sname (get w s)); repeat split.
  Qed.
  Lemma framed_fresh w nm s o : framed (length (structs w)) (fresh w nm) o -> framed s w o.
  Proof.
    intros [L F]. rewrite length_fresh in L. split; [lia|]. intros t H D. destruct (F t) as (A & B & C); [rewrite length_fresh; lia|lia|].
    unfold same. rewrite A, B, C, get_fresh by exact H. auto.
  Qed.
  Definition fr (cur : nat) (w : world) (o : outcome) : Prop := framed cur w (world_of o).
  Lemma fr_then cur w o k : fr cur w o -> (forall v w', o = Done v w' -> fr cur w' (k v w')) -> fr cur w (andthen o k).
  Proof.
    intros A B. destruct o as [v w'|w'|w']; cbn [andthen]; [|exact A|exact A]. eapply framed_trans; [exact A|apply B; reflexivity].
  Qed.

  Lemma make_fr k w nm h b s : (forall w cur l v, fr cur w (run k w cur l v)) -> fr s w (make_structure (run k) w nm h b).
  Proof.
    intros IH. unfold make_structure. fold (fresh w nm).
    assert (G : fr (length (structs w)) (fresh w nm) (andthen (run k (fresh w nm) (length (structs w)) h Other) (fun _ w' => run k w' (length (structs w)) b Other))).
    { apply fr_then; [apply IH|]. intros; apply IH. }
    apply (framed_fresh _ _ s) in G. destruct (andthen _ _) as [v w'|w'|w']; [exact G| |exact G].
    unfold fr in *; cbn [world_of] in *. eapply framed_trans; [exact G|apply framed_name].
  Qed.
  Lemma load_fr k w into f s : (forall k', k' <= k -> forall w cur l v, fr cur w (run k' w cur l v)) -> fr s w (load files (run k) w into f).
  Proof.
    intros IH. unfold load. destruct (files f) as [l|] eqn:E; [|apply framed_refl].
    destruct (modules_only f) as (h & b & E'); [congruence|]. rewrite E in E'. injection E' as ->.
    destruct k as [|k]; [exact (framed_refl s w)|]. cbn [Require_Model.run].
    assert (M := make_fr k (note w (Loaded f into)) (Some f) h b s (IH k ltac:(lia))).
    destruct (make_structure _ _ _ _ _) as [v w'|w'|w']; cbn [andthen]; [|exact M|exact M].
    destruct k as [|k]; exact M.
  Qed.
  Lemma run_fr fuel : forall w cur l v, fr cur w (run fuel w cur l v).
  Proof.
    induction fuel as [fuel IH] using lt_wf_ind. intros w cur l v. destruct fuel as [|fuel]; [apply framed_refl|].
    assert (LF : forall w into f s, fr s w (load files (run fuel) w into f)).
    { intros. apply load_fr. intros k' K. apply IH. lia. }
    assert (IF : forall w f s, fr s w (intern_structure files root (run fuel) w f)).
    { intros w0 f s. unfold intern_structure. destruct (get_structure w0 f); [apply framed_refl|apply LF]. }
    cbn [Require_Model.run]. destruct l as [|x l]; [apply framed_refl|]. apply fr_then; [|intros; apply IH; lia].
    destruct x as [f|f|l'|l'|a b|nm h b|n].
    - apply framed_put.
    - unfold require. destruct (featurep w cur f); [apply framed_refl|]. destruct (memq f (imports (get w cur))); [apply framed_refl|].
      destruct (get_structure w f).
      + eapply framed_trans; apply framed_put.
      + apply fr_then; [apply LF|]. intros [|s] w' _; [apply framed_refl|].
        eapply framed_trans; [apply framed_name|eapply framed_trans; apply framed_put].
    - revert w. induction l' as [|f l' IHl]; intros w; cbn [open_structures]; [apply framed_refl|].
      destruct (memq f (imports (get w cur))); [apply IHl|]. apply fr_then; [apply IF|]. intros [|s] w' _; [apply framed_refl|].
      eapply framed_trans; [apply framed_put|apply IHl].
    - revert w. induction l' as [|f l' IHl]; intros w; cbn [access_structures]; [apply framed_refl|].
      destruct (memq f (accessible (get w cur))); [apply IHl|]. apply fr_then; [apply IF|]. intros [|s] w' _; [apply framed_refl|].
      eapply framed_trans; [apply framed_put|apply IHl].
    - destruct (get_structure w a); [apply framed_name|apply framed_refl].
    - apply make_fr. intros; apply IH; lia.
    - split; [cbn; lia|]. intros; repeat split.
  Qed.
End Run.
