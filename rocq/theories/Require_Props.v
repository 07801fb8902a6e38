(** C79: modules and features are loaded when they are needed, once, and only
    into the structure that asks. *)

From Coq Require Import List Arith Bool Lia.
Import ListNotations.
Require Import Verif.Require_Model Verif.Require_Spec Verif.Require_Proofs Verif.Require_Ends.

(** All programs, whatever they come to, also those that do not end: a module
    is loaded at most once, bare code at most once into each structure *)
Theorem C79_once files root fuel w cur l v : polite files -> Forall (clean files) l -> trace w = [] ->
  cur < length (structs w) -> root < length (structs w) ->
  loaded_once files (trace (world_of (run files root fuel w cur l v))).
Proof.
  intros P C T V1 V2.
  assert (S : settled files w).
  { split; rewrite T; [|intros f i []]. split; [constructor|]. intros f i j _ []. }
  assert (O := run_ok files root P fuel w cur l v S V1 V2 C).
  destruct (run files root fuel w cur l v) as [v' w'|w'|w']; [apply O|exact O|exact O].
Qed.
Print Assumptions C79_once.

(** Every program ends, even if files require and open each other *)
Theorem C79_ends files root w cur l v : polite files -> flat_bare files -> finite files -> Forall (clean files) l ->
  cur < length (structs w) -> root < length (structs w) ->
  exists fuel o, (forall n, fuel <= n -> run files root n w cur l v = o) /\ forall w', o <> OutOfFuel w'.
Proof.
  intros P F (all & A) C V1 V2.
  destruct (run_ends files root P F all A (modules_left files all w) w cur l v (le_n _) (conj V1 V2) C) as (k & o & H & N).
  exists k, o. split; [exact H|]. intros w' ->. exact N.
Qed.
Print Assumptions C79_ends.

(** What was required needs no second load, whatever happens in between *)
Theorem C79_required files root f w cur w1 w2 v v1 v2 n m cur2 l2 u2 : polite files -> cur < length (structs w) ->
  run files root n w cur [Require f] v = Done v1 w1 ->
  run files root m w1 cur2 l2 u2 = Done v2 w2 ->
  forall k u, run files root (S (S k)) w2 cur [Require f] u = Done Other w2.
Proof.
  intros P V H1 H2 k u. apply run_done in H2 as [(L2 & F2 & _) _].
  assert (Q : cur < length (structs w1) /\ (In f (features (get w1 cur)) \/ In f (imports (get w1 cur)))).
  { destruct n as [|n]; [discriminate|]. cbn [run] in H1. unfold require in H1.
    assert (NX : forall a b, run files root n b cur [] a = Done v1 w1 -> w1 = b) by (intros a b; destruct n; [discriminate|intros [= _ <-]; reflexivity]).
    destruct (featurep w cur f) eqn:Fe.
    { cbn [andthen] in H1. apply NX in H1 as ->. split; [exact V|]. left. apply memq_in. exact Fe. }
    destruct (memq f (imports (get w cur))) eqn:Im.
    { cbn [andthen] in H1. apply NX in H1 as ->. split; [exact V|]. right. apply memq_in. exact Im. }
    assert (IMP : forall b, cur < length (structs b) -> let b' := provide (import b cur f) cur f in cur < length (structs b') /\ (In f (features (get b' cur)) \/ In f (imports (get b' cur)))).
    { intros b Vb. cbv zeta. unfold provide, import. rewrite !put_length. split; [exact Vb|]. right.
      rewrite get_put_same by (rewrite put_length; exact Vb). cbn [imports]. rewrite get_put_same by exact Vb. left. reflexivity. }
    destruct (get_structure w f) eqn:G.
    { cbn [andthen] in H1. apply NX in H1 as ->. apply (IMP w V). }
    assert (GD := load_good files (run files root n) (run_good files root n) w cur f).
    destruct (load files (run files root n) w cur f) as [x w'|w'|w'] eqn:L; cbn [andthen] in H1; try discriminate.
    destruct GD as [(L' & _ & _) _]. destruct x as [|s]; cbn [andthen] in H1; apply NX in H1 as ->.
    - split; [lia|]. left. unfold load in L. destruct (files f) as [l|] eqn:E; [|discriminate].
      destruct (P f l E) as [[(h & b & E')|(rest & E')] _].
      + rewrite E in E'. injection E' as ->. destruct n as [|n]; [discriminate|]. cbn [run] in L.
        unfold make_structure in L. destruct (andthen (run files root n _ _ h Other) _); cbn [andthen] in L; try discriminate.
        destruct n; discriminate.
      + rewrite E in E'. injection E' as ->. destruct n as [|n]; [discriminate|]. cbn [run andthen] in L.
        apply run_done in L as [(_ & F & _) _]. apply F; unfold provide; [rewrite put_length; exact V|].
        rewrite get_put_same by exact V. clear Im. cbn. destruct (memq f _) eqn:Q; [apply memq_in; exact Q|left; reflexivity].
    - apply (IMP (name_structure w' s (Some f))). rewrite name_length. lia. }
  destruct Q as [V' Q]. destruct (F2 cur V') as [A B]. cbn [run]. unfold require, featurep.
  destruct (memq f (features (get w2 cur))) eqn:E1; [reflexivity|].
  destruct (memq f (imports (get w2 cur))) eqn:E2; [reflexivity|].
  apply memq_not in E1. apply memq_not in E2. destruct Q; [exfalso; apply E1; auto|exfalso; apply E2; auto].
Qed.
Print Assumptions C79_required.

(** With modules only, a program changes the structure it runs in and new
    ones, no other: what modules open and provide is their own *)
Theorem C79_only_here files root fuel w cur l v : (forall f, files f <> None -> is_module files f) ->
  forall s, s < length (structs w) -> s <> cur ->
  let w' := world_of (run files root fuel w cur l v) in
  imports (get w' s) = imports (get w s) /\ accessible (get w' s) = accessible (get w s) /\ features (get w' s) = features (get w s).
Proof. intros M s H D. apply (run_fr files root M fuel w cur l v); auto. Qed.
Print Assumptions C79_only_here.

(** * A case of all these: two modules that open each other, bare code that
    requires one of them and bare code that requires it *)
Definition demo (f : name) : option (list form) :=
  match f with
  | 1 => Some [Structure (Some 1) [Open [2]] [Do 10]]
  | 2 => Some [Structure (Some 2) [Open [1]] [Require 3; Do 20]]
  | 3 => Some [Provide 3; Require 4; Do 30]
  | 4 => Some [Provide 4; Require 3; Require 1; Do 40]
  | _ => None
  end.
Definition start : world := mkw [mks (Some 0) [] [] []; mks (Some 9) [] [] []] [(0, Some 0); (9, Some 1)] [].
Lemma demo_polite : polite demo.
Proof.
  assert (M1 : is_module demo 1) by (exists [Open [2]], [Do 10]; reflexivity).
  assert (M2 : is_module demo 2) by (exists [Open [1]], [Require 3; Do 20]; reflexivity).
  intros [|[|[|[|[|f]]]]] l H; try discriminate; injection H as <-.
  - split; [left; exact M1|]. repeat constructor; assumption.
  - split; [left; exact M2|]. repeat constructor; assumption.
  - split; [right; eexists; reflexivity|]. repeat constructor.
  - split; [right; eexists; reflexivity|]. repeat constructor.
Qed.
Lemma demo_flat : flat_bare demo.
Proof. intros [|[|[|[|[|f]]]]] l H; try discriminate; injection H as <-; repeat constructor. Qed.
Lemma demo_finite : finite demo.
Proof. exists [1; 2; 3; 4]. intros [|[|[|[|[|f]]]]] H; cbn in *; try tauto; congruence. Qed.
Example C79_ex :
  polite demo /\ flat_bare demo /\ finite demo /\
  rev (trace (world_of (run demo 0 30 start 1 [Require 3; Require 1; Do 50; Require 3] Other))) =
    [Loaded 3 1; Loaded 4 1; Loaded 1 1; Loaded 2 0; Loaded 3 3; Loaded 4 3; Did 40 3; Did 30 3; Did 20 3;
     Did 10 2; Did 40 1; Did 30 1; Did 50 1].
Proof. split; [exact demo_polite|]. split; [exact demo_flat|]. split; [exact demo_finite|]. reflexivity. Qed.

(** * Where it is false *)

(** Required, but featurep denies it: the module was opened before *)
Theorem C79_featurep_refuted : exists files root fuel w cur f v w',
  polite files /\ run files root fuel w cur [Open [f]; Require f] Other = Done v w' /\ featurep w' cur f = false.
Proof.
  exists demo, 0, 30, start, 1, 1. eexists _, _. split; [exact demo_polite|]. split; vm_compute; reflexivity.
Qed.
Print Assumptions C79_featurep_refuted.

(** Bare code that does not provide its feature is loaded each time *)
Theorem C79_not_provided_refuted : exists files root fuel w cur f v w',
  run files root fuel w cur [Require f; Require f] Other = Done v w' /\ trace w = [] /\ ~ loaded_once files (trace w').
Proof.
  exists (fun f => match f with 1 => Some [Do 10] | _ => None end), 0, 9, start, 1, 1. eexists _, _.
  split; [vm_compute; reflexivity|]. split; [reflexivity|]. intros [N _]. cbn in N. inversion N as [|x l A _]; subst. apply A. left. reflexivity.
Qed.
Print Assumptions C79_not_provided_refuted.

(** Two files that provide their features at the end and require each other
    are loaded for ever *)
Definition ring (f : name) : option (list form) :=
  match f with 1 => Some [Require 2; Provide 1] | 2 => Some [Require 1; Provide 2] | _ => None end.
Lemma ring_forever k : forall w f v, (f = 1 \/ f = 2) -> names w = names start -> features (get w 1) = [] -> imports (get w 1) = [] ->
  exists w', run ring 0 k w 1 (Require f :: match f with 1 => [Provide 2] | _ => [Provide 1] end) v = OutOfFuel w'.
Proof.
  induction k as [k IH] using lt_wf_ind. intros w f v E N F I. destruct k as [|k]; [eexists; reflexivity|].
  cbn [run]. unfold require, featurep. rewrite F, I. cbn [memq existsb].
  assert (G : get_structure w f = None) by (unfold get_structure; rewrite N; destruct E as [->| ->]; reflexivity).
  rewrite G. unfold load. destruct E as [->| ->]; cbn [ring].
  - destruct (IH k (le_n _) (note w (Loaded 1 1)) 2 Other (or_intror eq_refl) N F I) as (w' & ->). eexists. reflexivity.
  - destruct (IH k (le_n _) (note w (Loaded 2 1)) 1 Other (or_introl eq_refl) N F I) as (w' & ->). eexists. reflexivity.
Qed.
Theorem C79_mutual_refuted : exists files root w cur l,
  finite files /\ Forall (clean files) l /\ (forall f l, files f = Some l -> In (Provide f) l) /\
  forall fuel v, exists w', run files root fuel w cur l v = OutOfFuel w'.
Proof.
  exists ring, 0, start, 1, [Require 1; Provide 2]. split; [|split; [|split]].
  - exists [1; 2]. intros [|[|[|f]]] H; cbn in *; try tauto; congruence.
  - repeat constructor.
  - intros [|[|[|f]]] l H; try discriminate; injection H as <-; cbn; auto.
  - intros fuel v. exact (ring_forever fuel start 1 v (or_introl eq_refl) eq_refl eq_refl eq_refl).
Qed.
Print Assumptions C79_mutual_refuted.

(** A file whose structure has another name is opened without complaint: no
    structure has the name that was opened, and each opening loads it again *)
Theorem C79_misnamed_refuted : exists files root fuel w cur f v w',
  run files root fuel w cur [Open [f]; Structure None [Open [f]] []] Other = Done v w' /\
  In f (imports (get w' cur)) /\ get_structure w' f = None /\ length (loads (trace w')) = 2.
Proof.
  exists (fun f => match f with 1 => Some [Structure (Some 2) [] [Do 10]] | _ => None end), 0, 20, start, 1, 1. eexists _, _.
  split; [vm_compute; reflexivity|]. split; [left; reflexivity|]. split; reflexivity.
Qed.
Print Assumptions C79_misnamed_refuted.

(** Bare code that provides its feature at once, and makes a structure that
    requires it: each is loaded once into each structure, for ever *)
Definition spawn (f : name) : option (list form) :=
  match f with 1 => Some [Provide 1; Structure None [] [Require 1]] | _ => None end.
Lemma spawn_forever k : forall w cur v, cur < length (structs w) -> get_structure w 1 = None -> features (get w cur) = [] -> imports (get w cur) = [] ->
  exists w', run spawn 0 k w cur [Require 1] v = OutOfFuel w'.
Proof.
  induction k as [k IH] using lt_wf_ind. intros w cur v V G F I. destruct k as [|k]; [eexists; reflexivity|].
  cbn [run]. unfold require, featurep. rewrite F, I, G. cbn [memq existsb]. unfold load. cbn [spawn].
  destruct k as [|k]; [eexists; reflexivity|]. cbn [run andthen]. destruct k as [|k]; [eexists; reflexivity|].
  cbn [run andthen]. unfold make_structure. set (w1 := provide (note w (Loaded 1 cur)) cur 1).
  destruct k as [|k]; [eexists; reflexivity|]. cbn [andthen]. change (run spawn 0 (S k) ?w ?c [] ?v) with (Done v w).
  cbn [andthen].
  destruct (IH (S k) ltac:(lia) (mkw (structs w1 ++ [mks None [] [] []]) (names w1) (trace w1)) (length (structs w1)) Other) as (w' & H).
  - cbn [structs]. rewrite app_length. cbn. lia.
  - exact G.
  - unfold get. cbn [structs]. rewrite app_nth2, Nat.sub_diag by lia. reflexivity.
  - unfold get. cbn [structs]. rewrite app_nth2, Nat.sub_diag by lia. reflexivity.
  - rewrite H. eexists. reflexivity.
Qed.
Theorem C79_bare_structure_refuted : exists files root w cur l,
  polite files /\ finite files /\ Forall (clean files) l /\
  forall fuel v, exists w', run files root fuel w cur l v = OutOfFuel w'.
Proof.
  exists spawn, 0, start, 1, [Require 1]. split; [|split; [|split]].
  - intros [|[|f]] l H; try discriminate; injection H as <-. split; [right; eexists; reflexivity|]. repeat constructor.
  - exists [1]. intros [|[|f]] H; cbn in *; try tauto; congruence.
  - repeat constructor.
  - intros fuel v. apply spawn_forever; cbn; auto.
Qed.
Print Assumptions C79_bare_structure_refuted.
