(** Proofs for Require_Props: loading comes to an end. *)

From Coq Require Import List Arith Bool Lia.
Import ListNotations.
Require Import Verif.Require_Model Verif.Require_Spec Verif.Require_Proofs.

Fixpoint defs (x : form) : nat :=
  match x with
  | Structure _ h b => S (list_sum (map defs h) + list_sum (map defs b))
  | _ => 0
  end.
Definition defs_of (l : list form) : nat := list_sum (map defs l).
Lemma flat_defs x : flat x -> defs x = 0.
Proof. destruct 1; reflexivity. Qed.
Lemma flat_defs_of l : Forall flat l -> defs_of l = 0.
Proof. induction 1 as [|x l F _ IH]; [reflexivity|]. unfold defs_of in *. cbn. rewrite (flat_defs x F). exact IH. Qed.

Lemma filter_le {A} (p q : A -> bool) l : (forall x, In x l -> p x = true -> q x = true) -> length (filter p l) <= length (filter q l).
Proof.
  induction l as [|x l IH]; intros H; cbn; [lia|]. assert (IH' := IH (fun y I => H y (or_intror I))).
  destruct (p x) eqn:E; [rewrite (H x (or_introl eq_refl) E); cbn; lia|]. destruct (q x); cbn; lia.
Qed.
Lemma filter_lt {A} (p q : A -> bool) l a : (forall x, In x l -> p x = true -> q x = true) -> In a l -> p a = false -> q a = true ->
  length (filter p l) < length (filter q l).
Proof.
  induction l as [|x l IH]; intros H I P Q; cbn; [destruct I|]. assert (LE := filter_le p q l (fun y I => H y (or_intror I))).
  destruct I as [->|I].
  - rewrite P, Q. cbn. lia.
  - assert (IH' := IH (fun y I => H y (or_intror I)) I P Q).
    destruct (p x) eqn:E; [rewrite (H x (or_introl eq_refl) E); cbn; lia|]. destruct (q x); cbn; lia.
Qed.
Lemma sum_le {A} (p q : A -> nat) l : (forall x, In x l -> p x <= q x) -> list_sum (map p l) <= list_sum (map q l).
Proof. unfold list_sum. induction l as [|x l IH]; intros H; cbn [map fold_right]; [lia|]. assert (H1 := H x (or_introl eq_refl)). assert (H2 := IH (fun y I => H y (or_intror I))). lia. Qed.
Lemma sum_lt {A} (p q : A -> nat) l a : (forall x, In x l -> p x <= q x) -> In a l -> p a < q a -> list_sum (map p l) < list_sum (map q l).
Proof.
  unfold list_sum. induction l as [|x l IH]; intros H I L; cbn [map fold_right]; [destruct I|]. assert (H1 := H x (or_introl eq_refl)).
  assert (H3 := sum_le p q l (fun y I => H y (or_intror I))). unfold list_sum in H3.
  destruct I as [->|I]; [lia|]. assert (H2 := IH (fun y I => H y (or_intror I)) I L). lia.
Qed.

Definition conv (F : nat -> outcome) : Prop :=
  exists k o, (forall k', k <= k' -> F k' = o) /\ match o with OutOfFuel _ => False | _ => True end.
Lemma conv_const o : match o with OutOfFuel _ => False | _ => True end -> conv (fun _ => o).
Proof. intros H. exists 0, o. auto. Qed.
Lemma conv_ext F G : (forall k, F k = G k) -> conv G -> conv F.
Proof. intros E (k & o & H & N). exists k, o. split; [|exact N]. intros k' L. rewrite E. auto. Qed.
Lemma conv_S F G : (forall k, G (S k) = F k) -> conv F -> conv G.
Proof.
  intros E (k & o & H & N). exists (S k), o. split; [|exact N]. intros [|k'] L; [lia|]. rewrite E. apply H. lia.
Qed.
Lemma conv_then F G : conv F -> (forall v w' k, F k = Done v w' -> conv (fun k => G k v w')) -> conv (fun k => andthen (F k) (G k)).
Proof.
  intros (k & o & H & N) C. destruct o as [v w'|w'|w']; [|exists k, (Error w'); split; [|exact I]|destruct N].
  - destruct (C v w' k (H k (le_n k))) as (k2 & o2 & H2 & N2). exists (max k k2), o2. split; [|exact N2].
    intros k' L. rewrite H by lia. cbn. apply H2. lia.
  - intros k' L. rewrite H by lia. reflexivity.
Qed.

Section Ends.
  Variable files : name -> option (list form).
  Variable root : nat.
  Notation run := (run files root).
  Hypothesis P : polite files.
  Hypothesis FB : flat_bare files.
  Variable all : list name.
  Hypothesis ALL : forall f, files f <> None -> In f all.

  Definition modb (f : name) : bool := match files f with Some [Structure (Some g) _ _] => Nat.eqb g f | _ => false end.
  Lemma modb_is f : is_module files f -> modb f = true.
  Proof. intros (h & b & E). unfold modb. rewrite E. apply Nat.eqb_refl. Qed.
  Definition unnamed (w : world) (f : name) : bool := match get_structure w f with None => true | _ => false end.
  Definition modules_left (w : world) : nat := length (filter (fun f => modb f && unnamed w f) all).
  Definition missing (s : struct) : nat := length (filter (fun f => negb (memq f (features s))) all).
  Definition features_left (w : world) : nat := list_sum (map (fun s => missing (get w s)) (seq 0 (length (structs w)))).

  Lemma left_le w w' : named w w' -> modules_left w' <= modules_left w.
  Proof.
    intros N. apply filter_le. intros f _ H. apply andb_true_iff in H as [M U]. rewrite M. unfold unnamed in *. cbn.
    specialize (N f). destruct (get_structure w f); [|reflexivity]. destruct (get_structure w' f); [discriminate|]. exfalso. apply N; [discriminate|reflexivity].
  Qed.
  Lemma left_lt w w' f : named w w' -> is_module files f -> get_structure w f = None -> get_structure w' f <> None -> modules_left w' < modules_left w.
  Proof.
    intros N M A B. apply (filter_lt _ _ _ f).
    - intros g _ H. apply andb_true_iff in H as [M' U]. rewrite M'. unfold unnamed in *. cbn.
      specialize (N g). destruct (get_structure w g); [|reflexivity]. destruct (get_structure w' g); [discriminate|]. exfalso. apply N; [discriminate|reflexivity].
    - apply ALL. destruct M as (h & b & ->). discriminate.
    - unfold unnamed. destruct (get_structure w' f); [apply andb_false_r|congruence].
    - unfold unnamed. rewrite A, (modb_is f M). reflexivity.
  Qed.
  Lemma missing_le x y : incl (features x) (features y) -> missing y <= missing x.
  Proof.
    intros I. apply filter_le. intros f _ H. apply negb_true_iff in H. apply negb_true_iff. apply memq_not in H. apply memq_not. intros J. apply H, I, J.
  Qed.
  Lemma features_le w w' : grows w w' -> length (structs w') = length (structs w) -> features_left w' <= features_left w.
  Proof.
    intros (_ & F & _) L. unfold features_left. rewrite L. apply sum_le. intros s I. apply in_seq in I. apply missing_le. apply F. lia.
  Qed.
  Lemma features_lt w w' s f : grows w w' -> length (structs w') = length (structs w) -> s < length (structs w) -> In f all ->
    ~ In f (features (get w s)) -> In f (features (get w' s)) -> features_left w' < features_left w.
  Proof.
    intros (_ & F & _) L H I A B. unfold features_left. rewrite L. apply (sum_lt _ _ _ s).
    - intros t J. apply in_seq in J. apply missing_le. apply F. lia.
    - apply in_seq. lia.
    - apply (filter_lt _ _ _ f); [|exact I| |].
      + intros g _ E. apply negb_true_iff in E. apply negb_true_iff. apply memq_not in E. apply memq_not. intros J. apply E. apply (proj1 (F s H)), J.
      + apply negb_false_iff. apply memq_in. exact B.
      + apply negb_true_iff. apply memq_not. exact A.
  Qed.

  (** Flat code makes structures only by loading modules *)
  Definition tight (w w' : world) : Prop :=
    modules_left w' <= modules_left w /\ (modules_left w' = modules_left w -> length (structs w') = length (structs w)).
  Lemma tight_trans a b c : tight a b -> tight b c -> tight a c.
  Proof. intros [A1 A2] [B1 B2]. split; [lia|]. intros E. rewrite B2, A2; lia. Qed.
  Lemma tight_step w w' : named w w' -> length (structs w') = length (structs w) -> tight w w'.
  Proof. intros N L. split; [apply left_le; exact N|auto]. Qed.
  Lemma tight_refl w : tight w w.
  Proof. apply tight_step; [apply named_refl|reflexivity]. Qed.
  Lemma name_length w s nm : length (structs (name_structure w s nm)) = length (structs w).
  Proof. unfold name_structure. destruct nm; destruct (sname _); try reflexivity. rewrite put_length. reflexivity. Qed.
  Lemma tight_put w s x : tight w (put w s x).
  Proof. apply tight_step; [nmd|apply put_length]. Qed.

  Lemma load_module_less k w into f v w' : is_module files f -> get_structure w f = None -> load files (run k) w into f = Done v w' ->
    modules_left w' < modules_left w.
  Proof.
    intros M G H. assert (GD := load_good files (run k) (run_good files root k) w into f). rewrite H in GD. destruct GD as [_ N].
    apply (left_lt w w' f N M G). unfold load in H. destruct M as (h & b & E). rewrite E in H.
    destruct k as [|k]; cbn [Require_Model.run] in H; [discriminate|].
    assert (Q : match make_structure (run k) (note w (Loaded f into)) (Some f) h b with Done _ w1 => get_structure w1 f <> None | _ => True end).
    { clear H. unfold make_structure. fold (fresh (note w (Loaded f into)) (Some f)). set (w1 := note w (Loaded f into)).
      assert (GG : good (andthen (run k (fresh w1 (Some f)) (length (structs w1)) h Other) (fun _ w' => run k w' (length (structs w1)) b Other)) (fresh w1 (Some f))).
      { apply good_then; [apply run_good|]. intros; apply run_good. }
      destruct (andthen _ _) as [v1 w2|w2|w2]; [|exact I|exact I]. destruct GG as [_ N2]. apply N2. rewrite fresh_bound. discriminate. }
    destruct (make_structure _ _ _ _ _) as [v1 w1|w1|w1]; cbn [andthen] in H; [|discriminate|discriminate].
    destruct k as [|k]; cbn [Require_Model.run] in H; [discriminate|]. injection H as _ <-. exact Q.
  Qed.

  Lemma load_tight k w into f v w' :
    (forall w cur l v v' w', Forall flat l -> run k w cur l v = Done v' w' -> tight w w') ->
    get_structure w f = None -> load files (run k) w into f = Done v w' -> tight w w'.
  Proof.
    intros IH G H. destruct (files f) as [l|] eqn:E; [|unfold load in H; rewrite E in H; discriminate].
    destruct (P f l E) as [[M|(rest & E')] _].
    - assert (L := load_module_less _ _ _ _ _ _ M G H). split; lia.
    - unfold load in H. rewrite E' in H. assert (F := FB f rest E').
      apply IH in H; [|constructor; [constructor|exact F]]. eapply tight_trans; [|exact H]. apply tight_step; [nmd|reflexivity].
  Qed.
  Section Tight.
    Variable k : nat.
    Hypothesis IH : forall w cur l v v' w', Forall flat l -> run k w cur l v = Done v' w' -> tight w w'.
    Lemma require_tight w cur f v w' : require files (run k) w cur f = Done v w' -> tight w w'.
    Proof.
      unfold require. destruct (featurep w cur f); [intros [= _ <-]; apply tight_refl|].
      destruct (memq f (imports (get w cur))); [intros [= _ <-]; apply tight_refl|]. destruct (get_structure w f) eqn:G.
      - intros [= _ <-]. eapply tight_trans; apply tight_put.
      - destruct (load files (run k) w cur f) as [u w1|w1|w1] eqn:L; cbn [andthen]; try discriminate.
        apply (load_tight k) in L; [|exact IH|exact G]. destruct u as [|s]; intros [= _ <-]; [exact L|].
        eapply tight_trans; [exact L|]. eapply tight_trans; [apply tight_step; [apply (named_name w1 s f)|apply name_length]|].
        eapply tight_trans; apply tight_put.
    Qed.
    Lemma intern_tight w f v w' : intern_structure files root (run k) w f = Done v w' -> tight w w'.
    Proof.
      unfold intern_structure. destruct (get_structure w f) eqn:G; [intros [= _ <-]; apply tight_refl|]. apply load_tight; auto.
    Qed.
    Lemma open_tight cur l : forall w v w', open_structures files root (run k) w cur l = Done v w' -> tight w w'.
    Proof.
      induction l as [|f l IHl]; intros w v w' H; cbn [open_structures] in H; [injection H as _ <-; apply tight_refl|].
      destruct (memq f (imports (get w cur))); [eauto|].
      destruct (intern_structure files root (run k) w f) as [u w1|w1|w1] eqn:E; cbn [andthen] in H; try discriminate.
      destruct u as [|s]; [discriminate|]. apply intern_tight in E. apply IHl in H.
      eapply tight_trans; [exact E|]. eapply tight_trans; [apply tight_put|exact H].
    Qed.
    Lemma access_tight cur l : forall w v w', access_structures files root (run k) w cur l = Done v w' -> tight w w'.
    Proof.
      induction l as [|f l IHl]; intros w v w' H; cbn [access_structures] in H; [injection H as _ <-; apply tight_refl|].
      destruct (memq f (accessible (get w cur))); [eauto|].
      destruct (intern_structure files root (run k) w f) as [u w1|w1|w1] eqn:E; cbn [andthen] in H; try discriminate.
      destruct u as [|s]; [discriminate|]. apply intern_tight in E. apply IHl in H.
      eapply tight_trans; [exact E|]. eapply tight_trans; [apply tight_put|exact H].
    Qed.
    Definition step (k : nat) (w : world) (cur : nat) (x : form) : outcome :=
      match x with
      | Provide f => Done Other (provide w cur f)
      | Require f => require files (run k) w cur f
      | Open l => open_structures files root (run k) w cur l
      | Access l => access_structures files root (run k) w cur l
      | Alias from to =>
          match get_structure w from with
          | Some s => Done Other (name_structure w s (Some to))
          | None => Error w
          end
      | Structure nm header body => make_structure (run k) w nm header body
      | Do n => Done Other (note w (Did n cur))
      end.
    Lemma step_tight w cur x v w' : flat x -> step k w cur x = Done v w' -> tight w w'.
    Proof.
      destruct 1 as [f|f|l|l|a b|n]; cbn [step].
      - intros [= _ <-]. apply tight_put.
      - apply require_tight.
      - apply open_tight.
      - apply access_tight.
      - destruct (get_structure w a) as [s|]; [|discriminate]. intros [= _ <-]. apply tight_step; [exact (named_name w s b)|exact (name_length w s (Some b))].
      - intros [= _ <-]. apply tight_step; [nmd|reflexivity].
    Qed.
  End Tight.
  Lemma run_cons k w cur x l v : run (S k) w cur (x :: l) v = andthen (step k w cur x) (fun v w => run k w cur l v).
  Proof. reflexivity. Qed.
  Lemma run_tight k : forall w cur l v v' w', Forall flat l -> run k w cur l v = Done v' w' -> tight w w'.
  Proof.
    induction k as [|k IH]; intros w cur l v v' w' F H; [discriminate|]. destruct F as [|x l Fx Fl].
    - injection H as _ <-. apply tight_refl.
    - rewrite run_cons in H. destruct (step k w cur x) as [u w1|w1|w1] eqn:E; cbn [andthen] in H; try discriminate.
      apply (step_tight k IH) in E; [|exact Fx]. eapply tight_trans; [exact E|eauto].
  Qed.

  (** * The end *)
  Lemma run_nil w cur v : conv (fun k => run k w cur [] v).
  Proof. eapply conv_S; [|apply (conv_const (Done v w)); exact I]. reflexivity. Qed.
  Lemma conv_map F (g : outcome -> outcome) : (forall o, match o with OutOfFuel _ => False | _ => True end -> match g o with OutOfFuel _ => False | _ => True end) ->
    conv F -> conv (fun k => g (F k)).
  Proof. intros G (k & o & E & N). exists k, (g o). split; [|exact (G o N)]. intros k' L. rewrite E by exact L. reflexivity. Qed.
  Lemma make_conv w nm h b : conv (fun k => run k (fresh w nm) (length (structs w)) h Other) ->
    (forall v w' k, run k (fresh w nm) (length (structs w)) h Other = Done v w' -> conv (fun k => run k w' (length (structs w)) b Other)) ->
    conv (fun k => make_structure (run k) w nm h b).
  Proof.
    intros H B.
    assert (C := conv_then _ (fun k _ w' => run k w' (length (structs w)) b Other) H B).
    apply (conv_map _ (fun o => match o with Done _ w' => Done (Struct (length (structs w))) w' | Error w' => Error (name_structure w' (length (structs w)) None) | o => o end)) in C.
    - eapply conv_ext; [|exact C]. intros k. cbv beta. unfold make_structure. fold (fresh w nm).
      destruct (andthen (run k (fresh w nm) (length (structs w)) h Other) _); reflexivity.
    - intros [v w'|w'|w']; auto.
  Qed.

  Definition valid (w : world) (cur : nat) : Prop := cur < length (structs w) /\ root < length (structs w).
  Section Level.
    Variables a d : nat.
    Hypothesis HA : forall w cur l v, modules_left w < a -> valid w cur -> Forall (clean files) l -> conv (fun k => run k w cur l v).
    Hypothesis HD : forall w cur l v, modules_left w <= a -> defs_of l < d -> valid w cur -> Forall (clean files) l -> conv (fun k => run k w cur l v).

    Lemma load_module_conv w into f : modules_left w <= a -> valid w into -> is_module files f -> get_structure w f = None ->
      conv (fun k => load files (run k) w into f).
    Proof.
      intros LE [V1 V2] M G. assert (M' := M). destruct M' as (h & b & E). unfold load. rewrite E.
      assert (C : clean files (Structure (Some f) h b)) by (destruct (P f _ E) as [_ C]; inversion C; assumption).
      inversion C as [| | | | |nm h' b' Ch Cb|]; subst.
      set (w1 := note w (Loaded f into)).
      assert (LT : modules_left (fresh w1 (Some f)) < a).
      { assert (L := left_lt w (fresh w1 (Some f)) f). rewrite fresh_bound in L.
        enough (modules_left (fresh w1 (Some f)) < modules_left w) by lia. apply L; [|exact M|exact G|discriminate].
        exact (named_fresh w1 (Some f)). }
      eapply conv_S; [intros k; apply run_cons|]. cbn [step].
      apply conv_then; [|intros; apply run_nil]. apply make_conv.
      - apply HA; [exact LT| |exact Ch]. split; rewrite length_fresh; subst w1; cbn; lia.
      - intros v w' k H. apply run_done in H as [(L & _) N]. rewrite length_fresh in L.
        apply HA; [|split; subst w1; cbn in *; lia|exact Cb]. assert (X := left_le _ _ N). lia.
    Qed.
    Lemma open_conv cur l : Forall (is_module files) l -> forall w, modules_left w <= a -> valid w cur ->
      conv (fun k => open_structures files root (run k) w cur l).
    Proof.
      induction 1 as [|f l M _ IH]; intros w LE V; cbn [open_structures]; [apply conv_const; exact I|].
      destruct (memq f (imports (get w cur))); [apply IH; auto|]. apply conv_then.
      - unfold intern_structure. destruct (get_structure w f) eqn:G; [apply conv_const; exact I|].
        apply load_module_conv; auto. destruct V; split; auto.
      - intros [|s] w' k H; [apply conv_const; exact I|].
        assert (GD := intern_good files root (run k) (run_good files root k) w f). rewrite H in GD. destruct GD as [(L & _) N].
        assert (X := left_le _ _ N). apply IH; [change (modules_left (import w' cur f)) with (modules_left w'); lia|].
        destruct V. unfold valid, import. rewrite put_length. lia.
    Qed.
    Lemma access_conv cur l : Forall (is_module files) l -> forall w, modules_left w <= a -> valid w cur ->
      conv (fun k => access_structures files root (run k) w cur l).
    Proof.
      induction 1 as [|f l M _ IH]; intros w LE V; cbn [access_structures]; [apply conv_const; exact I|].
      destruct (memq f (accessible (get w cur))); [apply IH; auto|]. apply conv_then.
      - unfold intern_structure. destruct (get_structure w f) eqn:G; [apply conv_const; exact I|].
        apply load_module_conv; auto. destruct V; split; auto.
      - intros [|s] w' k H; [apply conv_const; exact I|].
        assert (GD := intern_good files root (run k) (run_good files root k) w f). rewrite H in GD. destruct GD as [(L & _) N].
        assert (X := left_le _ _ N). apply IH; [change (modules_left (make_accessible w' cur f)) with (modules_left w'); lia|].
        destruct V. unfold valid, make_accessible. rewrite put_length. lia.
    Qed.

    Section Level2.
      Variable b : nat.
      Hypothesis HB : forall w cur l v, modules_left w <= a -> features_left w < b -> defs_of l <= d -> valid w cur -> Forall (clean files) l -> conv (fun k => run k w cur l v).

      Lemma load_bare_conv w into f : modules_left w <= a -> features_left w <= b -> valid w into -> is_bare files f -> ~ In f (features (get w into)) ->
        conv (fun k => load files (run k) w into f).
      Proof.
        intros LE LB [V1 V2] (rest & E) G. unfold load. rewrite E.
        assert (C : Forall (clean files) rest) by (destruct (P f _ E) as [_ C]; inversion C; assumption).
        assert (D0 : defs_of rest = 0) by (apply flat_defs_of, (FB f rest E)).
        eapply conv_S; [intros k; apply run_cons|]. cbn [step andthen]. set (w1 := note w (Loaded f into)).
        assert (L1 : length (structs (provide w1 into f)) = length (structs w)) by exact (put_length w1 into _).
        apply HB; [exact LE| |lia|split; rewrite L1; auto|exact C].
        enough (features_left (provide w1 into f) < features_left w) by lia.
        apply (features_lt w _ into f).
        - exact (grows_trans _ _ _ (grows_note w (Loaded f into)) (grows_provide w1 into f)).
        - exact L1.
        - exact V1.
        - apply ALL. rewrite E. discriminate.
        - exact G.
        - unfold provide. rewrite get_put_same by exact V1. cbn. destruct (memq f _) eqn:Q; [apply memq_in; exact Q|left; reflexivity].
      Qed.
      Lemma require_conv w cur f : modules_left w <= a -> features_left w <= b -> valid w cur -> conv (fun k => require files (run k) w cur f).
      Proof.
        intros LE LB V. unfold require. destruct (featurep w cur f) eqn:Fe; [apply conv_const; exact I|].
        destruct (memq f (imports (get w cur))); [apply conv_const; exact I|]. destruct (get_structure w f) eqn:G; [apply conv_const; exact I|].
        apply conv_then; [|intros [|s] w' k _; apply conv_const; exact I].
        destruct (files f) as [l|] eqn:E.
        - destruct (P f l E) as [[M|B] _]; [apply load_module_conv; auto|]. apply load_bare_conv; auto. apply memq_not. exact Fe.
        - unfold load. rewrite E. apply conv_const. exact I.
      Qed.
      Lemma list_conv l : Forall (clean files) l -> defs_of l <= d -> forall w cur v, modules_left w <= a -> features_left w <= b -> valid w cur ->
        conv (fun k => run k w cur l v).
      Proof.
        induction 1 as [|x l C Cl IH]; intros D w cur v LE LB V; [apply run_nil|].
        assert (Dl : defs x + defs_of l <= d) by (unfold defs_of in *; cbn in D; exact D).
        eapply conv_S; [intros k; apply run_cons|].
        assert (NEXT : forall k v w', step k w cur x = Done v w' -> conv (fun k => run k w' cur l v)).
        { intros k v' w' H.
          assert (GD : good (step k w cur x) w).
          { destruct x; cbn [step]; [apply good_done; [apply grows_provide|nmd]|apply require_good, run_good|apply open_good, run_good|apply access_good, run_good| |apply make_good, run_good|apply good_done; [apply grows_note|nmd]].
            destruct (get_structure w from); [apply good_done; [apply grows_name|apply named_name]|apply grows_refl]. }
          rewrite H in GD. destruct GD as [GR N]. assert (X := left_le _ _ N). assert (V' : valid w' cur) by (destruct GR as (L & _); destruct V; split; lia).
          destruct (Nat.eq_dec (modules_left w') (modules_left w)) as [Eq|Ne]; [|apply HA; auto; lia].
          assert (FX : flat x \/ 0 < defs x) by (destruct x; try (left; constructor); right; cbn [defs]; lia).
          destruct FX as [FX|FX].
          - assert (T := step_tight k (run_tight k) w cur x v' w' FX H). destruct T as [_ T].
            assert (Y := features_le w w' GR (T Eq)). apply IH; [lia|lia|lia|exact V'].
          - apply HD; [lia|lia|exact V'|exact Cl]. }
        apply conv_then; [|intros v' w' k H; eapply NEXT; exact H].
        destruct C as [f|f|l' M|l' M|p q|nm h bd Ch Cb|n]; cbn [step].
        - apply conv_const; exact I.
        - apply require_conv; auto.
        - apply open_conv; auto.
        - apply access_conv; auto.
        - destruct (get_structure w p); apply conv_const; exact I.
        - cbn [defs] in Dl. fold (defs_of h) (defs_of bd) in Dl. assert (LF := left_le _ _ (named_fresh w nm)). destruct V as [V1 V2]. apply make_conv.
          + apply HD; [lia|lia|split; rewrite length_fresh; lia|exact Ch].
          + intros v' w' k H. apply run_done in H as [(L & _) N]. rewrite length_fresh in L. assert (X := left_le _ _ N).
            apply HD; [lia|lia|split; lia|exact Cb].
        - apply conv_const; exact I.
      Qed.
    End Level2.
    Lemma level_conv b : forall w cur l v, modules_left w <= a -> features_left w <= b -> defs_of l <= d -> valid w cur -> Forall (clean files) l -> conv (fun k => run k w cur l v).
    Proof.
      induction b as [b IHb] using lt_wf_ind. intros w cur l v LE LB D V C. apply (list_conv b); auto.
      intros w' cur' l' v' LE' LB' D' V' C'. apply (IHb (features_left w')); auto.
    Qed.
  End Level.
  Lemma level_d a : (forall w cur l v, modules_left w < a -> valid w cur -> Forall (clean files) l -> conv (fun k => run k w cur l v)) ->
    forall d w cur l v, modules_left w <= a -> defs_of l <= d -> valid w cur -> Forall (clean files) l -> conv (fun k => run k w cur l v).
  Proof.
    intros HA d. induction d as [d IHd] using lt_wf_ind. intros w cur l v LE D V C.
    apply (level_conv a d HA) with (b := features_left w); auto.
    intros w' cur' l' v' LE' D' V' C'. apply (IHd (defs_of l')); auto.
  Qed.
  Lemma run_ends a : forall w cur l v, modules_left w <= a -> valid w cur -> Forall (clean files) l -> conv (fun k => run k w cur l v).
  Proof.
    induction a as [a IHa] using lt_wf_ind. intros w cur l v LE V C.
    apply (level_d a) with (d := defs_of l); auto. intros w' cur' l' v' LT V' C'. apply (IHa (modules_left w')); auto.
  Qed.
End Ends.
