(** Proofs for Load_Props. *)

From Coq Require Import String List ZArith Bool Permutation Lia.
Import ListNotations.
Local Open Scope string_scope.
Require Import Verif.Load_Model Verif.Load_Spec.
Local Open Scope list_scope.

Section Search.
  Variable readable : string -> bool.
  Variable modtime : string -> Z.
  Variable expand : string -> string -> string.
  Notation cons_ := (consider readable modtime).
  Notation chosen_ := (chosen readable modtime).

  Definition dead (t : option string) : Prop := forall x, t = Some x -> readable x = false.

  Lemma consider_none t n : cons_ None t = Some n <-> t = Some n /\ readable n = true.
  Proof.
    unfold consider. destruct t as [t|]; [|split; [discriminate|intros [? _]; discriminate]].
    destruct (readable t) eqn:E; split; intros H.
    - injection H as <-. auto.
    - destruct H as [H _]; congruence.
    - discriminate.
    - destruct H as [H H']; injection H as <-; congruence.
  Qed.
  Lemma consider_dead t : cons_ None t = None <-> dead t.
  Proof.
    unfold consider, dead. destruct t as [t|]; [|split; [discriminate|reflexivity]].
    destruct (readable t) eqn:E; split; intros H; try discriminate; auto.
    - specialize (H _ eq_refl); congruence.
    - intros x [= <-]; auto.
  Qed.
  Lemma consider_two a b n : cons_ (cons_ None a) b = Some n <-> chosen_ a b n.
  Proof.
    split.
    - intros H. destruct (cons_ None a) as [x|] eqn:E.
      + apply consider_none in E as [-> R]. unfold consider in H. destruct b as [y|].
        * destruct (readable y) eqn:Ry.
          -- unfold newer_than in H. destruct (Z.gtb (modtime y) (modtime x)) eqn:G; injection H as <-.
             ++ apply the_second; auto. intros x' [= <-] _. rewrite Z.gtb_ltb in G. apply Z.ltb_lt in G. lia.
             ++ apply the_first; auto. intros y' [= <-] _. rewrite Z.gtb_ltb in G. apply Z.ltb_ge in G. lia.
          -- injection H as <-. apply the_first; auto. intros y' [= <-] R'. congruence.
        * injection H as <-. apply the_first; auto. discriminate.
      + apply consider_dead in E. apply consider_none in H as [-> R].
        apply the_second; auto. intros x -> R'. rewrite (E x eq_refl) in R'. discriminate.
    - intros [x -> R F|y -> R F].
      + assert (E : cons_ None (Some x) = Some x) by (apply consider_none; auto). rewrite E.
        unfold consider. destruct b as [y|]; [|reflexivity]. destruct (readable y) eqn:Ry; [|reflexivity].
        specialize (F y eq_refl Ry). unfold newer_than. replace (Z.gtb (modtime y) (modtime x)) with false; [reflexivity|].
        rewrite Z.gtb_ltb. symmetry. apply Z.ltb_ge. lia.
      + destruct (cons_ None a) as [x|] eqn:E.
        * apply consider_none in E as [-> Rx]. specialize (F x eq_refl Rx). unfold consider. rewrite R. unfold newer_than.
          replace (Z.gtb (modtime y) (modtime x)) with true; [reflexivity|]. rewrite Z.gtb_ltb. symmetry. apply Z.ltb_lt. lia.
        * apply consider_none. auto.
  Qed.
  Lemma consider_two_none a b : cons_ (cons_ None a) b = None <-> dead a /\ dead b.
  Proof.
    split.
    - intros H. destruct (cons_ None a) as [x|] eqn:E.
      + unfold consider in H. destruct b as [y|]; [destruct (readable y); [destruct (newer_than modtime y x)|]|]; discriminate.
      + apply consider_dead in E. apply consider_dead in H. auto.
    - intros [A B]. apply consider_dead in A as ->. apply consider_dead. auto.
  Qed.
  Lemma consider_same a : cons_ (cons_ None a) a = cons_ None a.
  Proof.
    unfold consider at 2 3. destruct a as [a|]; [|reflexivity]. unfold consider. destruct (readable a) eqn:E; [|reflexivity].
    unfold newer_than. rewrite Z.gtb_ltb, Z.ltb_irrefl. reflexivity.
  Qed.
  Lemma consider_dead_r n t : dead t -> cons_ n t = n.
  Proof. unfold consider. destruct t as [t|]; [|reflexivity]. intros D. rewrite (D _ eq_refl). reflexivity. Qed.

  Lemma lisp_dir_ok interp ns sfx file d try : dead try ->
    let a := compiled expand interp ns sfx file d in
    let b := source expand ns sfx file d in
    fst (lisp_dir readable modtime expand interp ns sfx file d try) = cons_ (cons_ None a) b /\
    (cons_ (cons_ None a) b = None -> dead (snd (lisp_dir readable modtime expand interp ns sfx file d try))).
  Proof.
    intros D. unfold lisp_dir, compiled, source. destruct ns; cbn [fst snd].
    - split; [|auto]. unfold consider. destruct (readable (expand file d)); reflexivity.
    - destruct sfx as [s0 s1]; cbn [fst snd]. destruct interp.
      + destruct s0 as [s0|]; unfold suffixed, with_suffix.
        * split; [reflexivity|]. intros H. apply consider_two_none in H. tauto.
        * rewrite (consider_dead_r None try D). split; [reflexivity|auto].
      + destruct s1 as [s1|], s0 as [s0|]; unfold suffixed, with_suffix.
        * split; [reflexivity|]. intros H. apply consider_two_none in H. tauto.
        * rewrite consider_same. split; [reflexivity|]. intros H. apply consider_two_none in H. tauto.
        * rewrite (consider_dead_r None try D). split; [reflexivity|]. intros H. apply consider_two_none in H. tauto.
        * rewrite !(consider_dead_r _ try D). split; [reflexivity|auto].
  Qed.

  Lemma search_cons_none f g p n : chosen_in readable modtime f g (None :: p) n <-> chosen_in readable modtime f g p n.
  Proof.
    split.
    - intros (be & d & af & E & C & F). destruct be as [|x be]; [discriminate|]. injection E as <- E.
      exists be, d, af. split; [exact E|]. split; [exact C|]. intros d' n' I. apply F. right; auto.
    - intros (be & d & af & -> & C & F). exists (None :: be), d, af. split; [reflexivity|]. split; [exact C|].
      intros d' n' [I|I]; [discriminate|]. apply F; auto.
  Qed.
  Lemma search_cons f g d p n : chosen_in readable modtime f g (Some d :: p) n <->
    chosen_ (f d) (g d) n \/ (dead (f d) /\ dead (g d) /\ chosen_in readable modtime f g p n).
  Proof.
    split.
    - intros (be & d' & af & E & C & F). destruct be as [|x be].
      + injection E as -> _. auto.
      + injection E as <- E. right. split; [|split].
        * intros z Hz. apply (F d z); [left; reflexivity|left; exact Hz].
        * intros z Hz. apply (F d z); [left; reflexivity|right; exact Hz].
        * exists be, d', af. split; [exact E|]. split; [exact C|]. intros d'' n' I. apply F. right; auto.
    - intros [C|(A & B & be & d' & af & -> & C & F)].
      + exists [], d, p. split; [reflexivity|]. split; [exact C|]. intros d' n' [].
      + exists (Some d :: be), d', af. split; [reflexivity|]. split; [exact C|].
        intros d'' n' [I|I] H; [injection I as <-; destruct H; [apply A|apply B]; auto|]. eapply F; eauto.
  Qed.
  Lemma none_cons f g d p : none_in readable f g (Some d :: p) <-> dead (f d) /\ dead (g d) /\ none_in readable f g p.
  Proof.
    split.
    - intros H. split; [|split].
      + intros z Hz. apply (H d z); [left; reflexivity|auto].
      + intros z Hz. apply (H d z); [left; reflexivity|auto].
      + intros d' n' I. apply H. right; auto.
    - intros (A & B & C) d' n' [I|I] H; [injection I as <-; destruct H; [apply A|apply B]; auto|]. eapply C; eauto.
  Qed.
  Lemma none_cons_none f g p : none_in readable f g (None :: p) <-> none_in readable f g p.
  Proof.
    split.
    - intros H d n I. apply H. right; auto.
    - intros H d n [I|I]; [discriminate|]. apply H; auto.
  Qed.

  Lemma lisp_path_ok interp ns sfx file path : forall try, dead try ->
    match lisp_path readable modtime expand interp ns sfx file path try with
    | Some n => forall m, chosen_in readable modtime (compiled expand interp ns sfx file) (source expand ns sfx file) path m <-> m = n
    | None => none_in readable (compiled expand interp ns sfx file) (source expand ns sfx file) path
    end.
  Proof.
    induction path as [|[d|] path IH]; intros try D; cbn [lisp_path].
    - intros d n [].
    - destruct (lisp_dir_ok interp ns sfx file d try D) as [E1 E2].
      destruct (lisp_dir _ _ _ _ _ _ _ _ _) as [name try']; cbn [fst snd] in *.
      destruct name as [n|].
      + intros m. rewrite search_cons. symmetry in E1. split.
        * intros [C|(A & B & _)].
          -- apply consider_two in C. congruence.
          -- assert (X : cons_ (cons_ None (compiled expand interp ns sfx file d)) (source expand ns sfx file d) = None)
               by (apply consider_two_none; auto). congruence.
        * intros ->. left. apply consider_two. exact E1.
      + symmetry in E1. specialize (IH try' (E2 E1)). apply consider_two_none in E1 as [A B].
        destruct (lisp_path _ _ _ _ _ _ _ path try') as [n|].
        * intros m. rewrite search_cons. rewrite <- (IH m). split; [|auto].
          intros [C|(_ & _ & C)]; [|exact C].
          apply consider_two in C. assert (X := proj2 (consider_two_none _ _) (conj A B)). congruence.
        * apply none_cons. auto.
    - specialize (IH try D). destruct (lisp_path _ _ _ _ _ _ _ path try) as [n|].
      + intros m. rewrite search_cons_none. apply IH.
      + apply none_cons_none. exact IH.
  Qed.
  Lemma dl_path_ok file path :
    match dl_path readable modtime expand file path with
    | Some n => forall m, chosen_in readable modtime (shared_object expand file) (shared_lib expand file) path m <-> m = n
    | None => none_in readable (shared_object expand file) (shared_lib expand file) path
    end.
  Proof.
    induction path as [|[d|] path IH]; cbn [dl_path].
    - intros d n [].
    - fold (shared_object expand file d) (shared_lib expand file d).
      destruct (cons_ _ _) as [n|] eqn:E.
      + intros m. rewrite search_cons. split.
        * intros [C|(A & B & _)].
          -- apply consider_two in C. congruence.
          -- assert (X := proj2 (consider_two_none _ _) (conj A B)). congruence.
        * intros ->. left. apply consider_two. exact E.
      + apply consider_two_none in E as [A B].
        destruct (dl_path _ _ _ file path) as [n|].
        * intros m. rewrite search_cons. rewrite <- (IH m). split; [|auto].
          intros [C|(_ & _ & C)]; [|exact C].
          apply consider_two in C. assert (X := proj2 (consider_two_none _ _) (conj A B)). congruence.
        * apply none_cons. auto.
    - destruct (dl_path _ _ _ file path) as [n|].
      + intros m. rewrite search_cons_none. apply IH.
      + apply none_cons_none. exact IH.
  Qed.
  Lemma chosen_not_none f g p n : chosen_in readable modtime f g p n -> none_in readable f g p -> False.
  Proof.
    intros (be & d & af & -> & C & _) H. destruct C as [x A R _|y A R _].
    - rewrite (H d x) in R; [discriminate|apply in_or_app; right; left; reflexivity|auto].
    - rewrite (H d y) in R; [discriminate|apply in_or_app; right; left; reflexivity|auto].
  Qed.
End Search.

(** * After loading *)
Lemma pending_register f t al : Permutation (pending (register f t al)) ((f, t) :: pending al).
Proof.
  unfold register. destruct (call_after_load f t al) as [al'|] eqn:E; [|apply Permutation_refl].
  revert al' E. induction al as [|[g ts] al IH]; intros al' E; cbn [call_after_load] in E; [discriminate|].
  destruct (String.eqb f g) eqn:Q.
  - apply String.eqb_eq in Q as <-. injection E as <-. unfold pending. cbn. apply Permutation_refl.
  - destruct (call_after_load f t al) as [al2|]; [|discriminate]. injection E as <-. specialize (IH _ eq_refl).
    unfold pending in *. cbn [flat_map fst snd].
    eapply Permutation_trans; [apply Permutation_app_head; exact IH|]. apply Permutation_sym, Permutation_middle.
Qed.
Lemma names_register f t al : one_entry al -> one_entry (register f t al).
Proof.
  unfold one_entry, register. intros N. destruct (call_after_load f t al) as [al'|] eqn:E.
  - assert (M : map fst al' = map fst al).
    { clear N. revert al' E. induction al as [|[g ts] al IH]; intros al' E; cbn [call_after_load] in E; [discriminate|].
      destruct (String.eqb f g); [injection E as <-; reflexivity|].
      destruct (call_after_load f t al) as [al2|]; [|discriminate]. injection E as <-. cbn. f_equal. auto. }
    rewrite M. exact N.
  - cbn. constructor; [|exact N]. clear N. induction al as [|[g ts] al IH]; cbn [call_after_load] in E; [intros []|].
    destruct (String.eqb f g) eqn:Q; [discriminate|]. destruct (call_after_load f t al); [discriminate|].
    apply String.eqb_neq in Q. intros [H|H]; [cbn in H; congruence|]. apply IH; auto.
Qed.
Lemma pending_all l al : Permutation (pending (register_all l al)) (l ++ pending al).
Proof.
  revert al. induction l as [|[f t] l IH]; intros al; [apply Permutation_refl|].
  cbn [register_all fold_left fst snd]. fold (register_all l (register f t al)).
  eapply Permutation_trans; [apply IH|].
  eapply Permutation_trans; [apply Permutation_app_head, pending_register|]. apply Permutation_sym, Permutation_middle.
Qed.
Lemma names_all l al : one_entry al -> one_entry (register_all l al).
Proof. revert al. induction l as [|[f t] l IH]; intros al N; [exact N|]. cbn. apply IH, names_register, N. Qed.

Lemma pending_delete f ts al : assoc f al = Some ts -> Permutation (pending al) (map (pair f) ts ++ pending (delete f al)).
Proof.
  induction al as [|[g us] al IH]; cbn [assoc delete]; [discriminate|]. destruct (String.eqb f g) eqn:Q.
  - apply String.eqb_eq in Q as <-. intros [= ->]. apply Permutation_refl.
  - intros H. specialize (IH H). unfold pending in *. cbn [flat_map fst snd].
    eapply Permutation_trans; [apply Permutation_app_head; exact IH|]. rewrite !app_assoc. apply Permutation_app_tail, Permutation_app_comm.
Qed.
Lemma delete_incl f al x : In x (map fst (delete f al)) -> In x (map fst al).
Proof.
  induction al as [|[g us] al IH]; cbn [delete]; [auto|]. destruct (String.eqb f g); cbn; [auto|]. intros [H|H]; auto.
Qed.
Lemma names_delete f al : one_entry al -> one_entry (delete f al).
Proof.
  unfold one_entry. induction al as [|[g us] al IH]; cbn [delete]; [auto|]. intros N. inversion N; subst.
  destruct (String.eqb f g); [assumption|]. cbn. constructor; [|auto]. intros H. apply delete_incl in H. contradiction.
Qed.
Lemma assoc_none f al : assoc f al = None -> forall t, ~ In (f, t) (pending al).
Proof.
  induction al as [|[g us] al IH]; cbn [assoc]; [intros _ t []|]. destruct (String.eqb f g) eqn:Q; [discriminate|].
  intros H t I. unfold pending in I. cbn [flat_map fst snd] in I. apply in_app_or in I as [I|I]; [|eapply IH; eauto].
  apply in_map_iff in I as (u & [= E _] & _). apply String.eqb_neq in Q. congruence.
Qed.
Lemma assoc_none_name f al : ~ In f (map fst al) -> assoc f al = None.
Proof.
  induction al as [|[g us] al IH]; cbn; [auto|]. intros N. destruct (String.eqb f g) eqn:Q.
  - apply String.eqb_eq in Q as ->. exfalso; auto.
  - auto.
Qed.
Lemma delete_none f al : one_entry al -> assoc f (delete f al) = None.
Proof.
  unfold one_entry. induction al as [|[g us] al IH]; cbn [delete]; [auto|]. intros N. inversion N; subst.
  destruct (String.eqb f g) eqn:Q.
  - apply String.eqb_eq in Q as ->. apply assoc_none_name. assumption.
  - cbn [assoc]. rewrite Q. auto.
Qed.

Section After.
  Variable effect : nat -> list (string * nat).
  Variable fails : nat -> bool.

  Lemma call_all_ok ts : forall al calls i al', call_all effect fails ts false al = (calls, i, al') ->
    Forall (fun t => fails t = false) calls -> one_entry al ->
    calls = ts /\ i = false /\ one_entry al' /\ Permutation (pending al') (flat_map effect ts ++ pending al).
  Proof.
    induction ts as [|t ts IH]; intros al calls i al' H F N; cbn [call_all] in H.
    - injection H as <- <- <-. auto.
    - destruct (call_all effect fails ts (fails t) (register_all (effect t) al)) as [[c i'] al2] eqn:E.
      injection H as <- <- <-. inversion F as [|x xs Ft F']; subst. rewrite Ft in E.
      destruct (IH _ _ _ _ E F' (names_all _ _ N)) as (-> & -> & N' & P).
      split; [reflexivity|]. split; [reflexivity|]. split; [exact N'|]. cbn [flat_map].
      eapply Permutation_trans; [exact P|]. eapply Permutation_trans; [apply Permutation_app_head, pending_all|].
      rewrite !app_assoc. apply Permutation_app_tail, Permutation_app_comm.
  Qed.
  Lemma after_load_ok fuel file : forall al calls i al', after_load effect fails fuel file false al = Some (calls, i, al') ->
    Forall (fun t => fails t = false) calls -> one_entry al ->
    i = false /\ one_entry al' /\ (forall t, ~ In (file, t) (pending al')) /\
    Permutation (map (pair file) calls ++ pending al') (pending al ++ flat_map effect calls).
  Proof.
    induction fuel as [|fuel IH]; intros al calls i al' H F N; cbn [after_load] in H; [discriminate|].
    destruct (assoc file al) as [ts|] eqn:A.
    - destruct (call_all effect fails ts false (delete file al)) as [[c i1] al1] eqn:E.
      destruct (after_load effect fails fuel file i1 al1) as [[[c2 i2] al2]|] eqn:E2; [|discriminate].
      injection H as <- <- <-. apply Forall_app in F as [F1 F2].
      destruct (call_all_ok _ _ _ _ _ E F1 (names_delete _ _ N)) as (-> & -> & N1 & P1).
      destruct (IH _ _ _ _ E2 F2 N1) as (-> & N2 & Q & P2).
      split; [reflexivity|]. split; [exact N2|]. split; [exact Q|].
      rewrite map_app, flat_map_app, <- app_assoc.
      eapply Permutation_trans; [apply Permutation_app_head; exact P2|].
      eapply Permutation_trans; [apply Permutation_app_head, Permutation_app_tail; exact P1|].
      eapply Permutation_trans; [|apply Permutation_app_tail, Permutation_sym, pending_delete; exact A].
      rewrite <- !app_assoc. apply Permutation_app_head. rewrite !app_assoc. apply Permutation_app_tail, Permutation_app_comm.
    - injection H as <- <- <-. split; [reflexivity|]. split; [exact N|]. split; [apply assoc_none; exact A|].
      cbn. rewrite app_nil_r. apply Permutation_refl.
  Qed.

  Lemma assoc_register f g t al : f <> g -> assoc f (register g t al) = assoc f al.
  Proof.
    intros D. unfold register. destruct (call_after_load g t al) as [al'|] eqn:E.
    - revert al' E. induction al as [|[h us] al IH]; intros al' E; cbn [call_after_load] in E; [discriminate|].
      destruct (String.eqb g h) eqn:Q.
      + apply String.eqb_eq in Q as <-. injection E as <-. cbn. apply String.eqb_neq in D. rewrite D. reflexivity.
      + destruct (call_after_load g t al) as [al2|]; [|discriminate]. injection E as <-. cbn. destruct (String.eqb f h); auto.
    - cbn. apply String.eqb_neq in D. rewrite D. reflexivity.
  Qed.
  Lemma assoc_register_all f l al : (forall x, In x l -> fst x <> f) -> assoc f (register_all l al) = assoc f al.
  Proof.
    revert al. induction l as [|[g t] l IH]; intros al H; [reflexivity|]. cbn. fold (register_all l (register g t al)).
    rewrite IH by (intros x I; apply H; right; exact I). apply assoc_register. intros ->. apply (H (g, t)); [left; reflexivity|reflexivity].
  Qed.
  Lemma assoc_call_all f ts : forall i al calls i' al', call_all effect fails ts i al = (calls, i', al') ->
    (forall t, In t ts -> forall x, In x (effect t) -> fst x <> f) -> assoc f al' = assoc f al.
  Proof.
    induction ts as [|t ts IH]; intros i al calls i' al' H D; cbn [call_all] in H; [injection H as _ _ <-; reflexivity|].
    destruct i; [injection H as _ _ <-; reflexivity|].
    destruct (call_all effect fails ts (fails t) (register_all (effect t) al)) as [[c i2] al2] eqn:E. injection H as _ _ <-.
    rewrite (IH _ _ _ _ _ E) by (intros u I; apply D; right; exact I). apply assoc_register_all. apply D. left; reflexivity.
  Qed.
  Lemma assoc_pending f ts al : assoc f al = Some ts -> forall t, In t ts -> In (f, t) (pending al).
  Proof.
    intros A t I. apply pending_delete in A. eapply Permutation_in; [apply Permutation_sym; exact A|].
    apply in_or_app. left. apply in_map. exact I.
  Qed.
  Lemma after_load_ends file al : one_entry al ->
    (forall t, In (file, t) (pending al) -> forall x, In x (effect t) -> fst x <> file) ->
    after_load effect fails 2 file false al <> None.
  Proof.
    intros N D. cbn [after_load]. destruct (assoc file al) as [ts|] eqn:A; [|discriminate].
    destruct (call_all effect fails ts false (delete file al)) as [[c i] al'] eqn:E.
    rewrite (assoc_call_all _ _ _ _ _ _ _ E), delete_none by (try exact N; intros t I; apply D; eapply assoc_pending; eauto). discriminate.
  Qed.
End After.

Lemma assoc_register_same f t al : assoc f (register f t al) = Some (t :: match assoc f al with Some ts => ts | None => [] end).
Proof.
  unfold register. destruct (call_after_load f t al) as [al'|] eqn:E.
  - revert al' E. induction al as [|[h us] al IH]; intros al' E; cbn [call_after_load] in E; [discriminate|].
    destruct (String.eqb f h) eqn:Q.
    + injection E as <-. cbn. rewrite Q. reflexivity.
    + destruct (call_after_load f t al) as [al2|]; [|discriminate]. injection E as <-. cbn. rewrite Q. auto.
  - cbn. rewrite String.eqb_refl. f_equal. f_equal. revert E. induction al as [|[h us] al IH]; cbn [call_after_load assoc]; [auto|].
    destruct (String.eqb f h); [discriminate|]. destruct (call_after_load f t al); [discriminate|auto].
Qed.
Lemma assoc_order file regs : forall al,
  match assoc file (register_all regs al) with Some ts => ts | None => [] end =
  rev (map snd (filter (fun x => String.eqb file (fst x)) regs)) ++ match assoc file al with Some ts => ts | None => [] end.
Proof.
  induction regs as [|[f t] regs IH]; intros al; [reflexivity|]. cbn. fold (register_all regs (register f t al)). rewrite IH.
  destruct (String.eqb file f) eqn:Q.
  - apply String.eqb_eq in Q as <-. rewrite assoc_register_same. cbn. rewrite <- app_assoc. reflexivity.
  - apply String.eqb_neq in Q. rewrite assoc_register by exact Q. reflexivity.
Qed.
