(** The cache of compiled regexps gives what compiling would. *)
From Coq Require Import List ZArith Bool Lia ZifyBool.
From Verif Require Import Regexp_Model Regexp_Spec Find_Model Find_Spec.
Import ListNotations.
Open Scope Z_scope.

Definition entry_ok (h : heap) (e : entry) : Prop := exists s, h (fst e) = Some s /\ regcomp s = Ok (snd e).
Record kept (h : heap) (st : cstate) : Prop := {
  g_view : forall a s, h a = Some s -> strings st a = Some s;
  g_entries : Forall (entry_ok (strings st)) (cache st);
  g_distinct : NoDup (map fst (cache st));
  g_limit : 0 < limit st }.

Lemma kept_init : kept (fun _ => None) cinit.
Proof. split; cbn; try constructor; try lia; discriminate. Qed.

(** * Looking up *)
Lemma lookup_ok h re s : h re = Some s -> forall after before, Forall (entry_ok h) after -> Forall (entry_ok h) before ->
  NoDup (map fst (before ++ after)) -> ~ In re (map fst before) ->
  exists o, lookup h re s before after = Ok o /\
    match o with
    | None => ~ In re (map fst (before ++ after))
    | Some (p, c) => regcomp s = Ok p /\ Forall (entry_ok h) c /\ NoDup (map fst c)
    end.
Proof.
  intros Hs. induction after as [ | [a p] after IH]; intros before A B N NI.
  { exists None. split; [reflexivity | ]. now rewrite app_nil_r. }
  cbn [lookup]. inversion A as [ | ? ? (s' & E1 & E2) A']; subst. cbn [fst snd] in *.
  assert (Hit : regcomp s = Ok p -> Forall (entry_ok h) ((a, p) :: before ++ after) /\ NoDup (map fst ((a, p) :: before ++ after))).
  { intros R. split.
    - constructor; [exists s'; auto | ]. apply Forall_app. now split.
    - cbn [map fst]. rewrite map_app in N |- *. cbn [map fst] in N. apply NoDup_remove in N as [N1 N2]. constructor; auto. }
  destruct (Nat.eqb_spec a re) as [-> | Na].
  - assert (s' = s) by congruence. subst s'. eexists. split; [reflexivity | ]. split; [exact E2 | ]. now apply Hit.
  - rewrite E1. destruct (list_eq_dec Z.eq_dec s' s) as [-> | Ns].
    + eexists. split; [reflexivity | ]. split; [exact E2 | ]. now apply Hit.
    + destruct (IH (before ++ [(a, p)])) as (o & E & R); auto.
      * apply Forall_app. split; [exact B | ]. constructor; [exists s'; auto | constructor].
      * rewrite <- app_assoc. exact N.
      * rewrite map_app. intros I. apply in_app_or in I as [I | [I | []]]; [now apply NI | now apply Na].
      * exists o. split; [exact E | ]. now rewrite <- app_assoc in R.
Qed.

(** * Removing *)
Lemma modified_ok a : forall c c', string_modified a c = Ok c' -> NoDup (map fst c) ->
  NoDup (map fst c') /\ ~ In a (map fst c') /\ (forall e, In e c' -> In e c).
Proof.
  intros c. remember (length c) as n eqn:L. assert (Ln : (length c <= n)%nat) by lia. clear L. revert c Ln.
  induction n as [ | n IH]; intros c Ln c' E N.
  { destruct c; [ | cbn in Ln; lia]. injection E as <-. repeat split; auto. }
  destruct c as [ | [b p] c]; [injection E as <-; repeat split; auto | ]. cbn [string_modified] in E. cbn [length] in Ln.
  cbn [map fst] in N. apply NoDup_cons_iff in N as [N1 N2].
  destruct (Nat.eqb_spec b a) as [-> | Nb].
  - destruct c as [ | e c]; [discriminate | ]. destruct (string_modified a c) as [r | | | ] eqn:R; try discriminate. injection E as <-.
    cbn [length] in Ln. cbn [map] in N1, N2. apply NoDup_cons_iff in N2 as [N2 N3]. destruct (IH c ltac:(lia) r R N3) as (I1 & I2 & I3).
    split; [ | split].
    + cbn [map]. constructor; [ | exact I1]. intros I. apply in_map_iff in I as (x & Ex & Ix). apply N2. rewrite <- Ex. apply in_map. auto.
    + intros [I | I]; [apply N1; now left | contradiction].
    + intros x [<- | I]; [right; now left | right; right; auto].
  - destruct (string_modified a c) as [r | | | ] eqn:R; try discriminate. injection E as <-.
    destruct (IH c ltac:(lia) r R N2) as (I1 & I2 & I3). split; [ | split].
    + cbn [map fst]. constructor; [ | exact I1]. intros I. apply in_map_iff in I as (x & Ex & Ix). apply N1. rewrite <- Ex. apply in_map. auto.
    + intros [I | I]; [now apply Nb | contradiction].
    + intros x [<- | I]; [now left | right; auto].
Qed.

(** * Collecting *)
Lemma marked_split lim : forall c total, fst (marked lim total c) ++ snd (marked lim total c) = c.
Proof.
  induction c as [ | [a p] c IH]; intros total; [reflexivity | ]. cbn [marked]. destruct (total <? lim); [ | reflexivity].
  specialize (IH (total + entry_size p)). destruct (marked lim (total + entry_size p) c) as [x y]. cbn [fst snd app] in *. now rewrite IH.
Qed.
Lemma nodup_app_l {A} (a b : list A) : NoDup (a ++ b) -> NoDup a.
Proof.
  induction a as [ | x a IH]; intros N; [constructor | ]. cbn in N. apply NoDup_cons_iff in N as [N1 N2].
  constructor; [intros I; apply N1, in_or_app; now left | auto].
Qed.
Lemma collect_kept h st (live : nat -> bool) : kept h st -> kept (fun b => if live b then h b else None) (collect st live).
Proof.
  intros [G1 G2 G3 G4]. unfold collect. pose proof (marked_split (limit st) (cache st) 0) as M.
  destruct (marked (limit st) 0 (cache st)) as [x y] eqn:E. cbn [fst snd] in M.
  assert (Ex : match x with [] => cache st | _ => x end = x).
  { destruct x as [ | e x]; [ | reflexivity]. destruct (cache st) as [ | [a p] c]; [reflexivity | ]. cbn [marked] in E.
    replace (0 <? limit st) with true in E by lia. destruct (marked (limit st) (0 + entry_size p) c). discriminate. }
  rewrite Ex. split; cbn [strings cache limit]; auto.
  - intros a s. destruct (live a); [ | discriminate]. cbn [orb]. apply G1.
  - rewrite <- M in G2. apply Forall_app in G2 as [G2 _]. rewrite Forall_forall in *. intros [a p] I. destruct (G2 _ I) as (s & S1 & S2).
    exists s. split; [ | exact S2]. cbn [fst] in *. replace (existsb (fun e => Nat.eqb (fst e) a) x) with true; [now rewrite orb_true_r | ].
    symmetry. apply existsb_exists. exists (a, p). split; [exact I | ]. cbn. apply Nat.eqb_refl.
  - rewrite <- M, map_app in G3. eapply nodup_app_l. exact G3.
Qed.

Lemma limit_pos n : 0 <= n -> n mod 2 ^ 32 <> 0 -> 0 < as_limit n.
Proof. intros A B. unfold as_limit. pose proof (Z.mod_pos_bound n (2 ^ 32) ltac:(lia)). destruct (n mod 2 ^ 32 <? 2 ^ 31); lia. Qed.

(** * Programs *)
Lemma entries_upd h a s c : Forall (entry_ok h) c -> ~ In a (map fst c) -> Forall (entry_ok (upd h a (Some s))) c.
Proof.
  intros F N. rewrite Forall_forall in *. intros [b p] I. destruct (F _ I) as (s' & E1 & E2). exists s'. split; [ | exact E2].
  unfold upd. cbn [fst] in *. destruct (Nat.eqb_spec b a) as [-> | ]; [ | exact E1]. destruct N. apply in_map_iff. now exists (a, p).
Qed.
Lemma view_upd h (g : heap) a s : (forall b x, h b = Some x -> g b = Some x) -> forall b x, (if Nat.eqb b a then Some s else h b) = Some x -> upd g a (Some s) b = Some x.
Proof. intros V b x. unfold upd. destruct (Nat.eqb b a); auto. Qed.

Lemma run_fresh : forall ops h st l, kept h st -> Forall careful ops -> sensible h ops -> run st ops = Ok l -> l = fresh h ops.
Proof.
  induction ops as [ | o ops IH]; intros h st l G C S R; [now injection R as <- | ].
  inversion C as [ | ? ? Co C']; subst. cbn [run] in R.
  destruct (step st o) as [[st' r] | | | ] eqn:E; try discriminate. cbn [bind] in R. destruct (run st' ops) as [l' | | | ] eqn:R'; try discriminate. cbn [bind] in R. injection R as <-.
  pose proof G as [G1 G2 G3 G4]. destruct o as [a s | a s | a s | a | live | n]; cbn [step careful] in E, Co; cbn [sensible] in S; cbn [fresh].
  - destruct (strings st a) eqn:Ea; [discriminate | ]. injection E as <- <-. eapply IH; eauto. split; cbn [strings cache limit]; auto.
    + now apply view_upd.
    + apply entries_upd; [exact G2 | ]. intros I. apply in_map_iff in I as ([b p] & Eb & Ib). rewrite Forall_forall in G2.
      destruct (G2 _ Ib) as (s' & X & _). cbn [fst] in *. congruence.
  - destruct (strings st a) eqn:Ea; [ | discriminate]. destruct (string_modified a (cache st)) as [c | | | ] eqn:M; try discriminate. cbn [bind] in E. injection E as <- <-.
    destruct (modified_ok _ _ _ M G3) as (M1 & M2 & M3). eapply IH; eauto; [ | apply S]. split; cbn [strings cache limit]; auto.
    + now apply view_upd.
    + apply entries_upd; [ | exact M2]. rewrite Forall_forall in *. auto.
  - destruct Co.
  - destruct (strings st a) as [s | ] eqn:Ea; [ | discriminate]. destruct S as [Sa S]. destruct (h a) as [s' | ] eqn:Ha; [ | now destruct Sa].
    assert (s' = s) by (apply G1 in Ha; congruence). subst s'.
    unfold compile in E. rewrite Ea in E. destruct (lookup_ok (strings st) a s Ea (cache st) [] G2 ltac:(constructor) G3 ltac:(intros [])) as (o & L & P).
    cbn [app] in P. rewrite L in E. cbn in E. destruct o as [[p c] | ].
    + injection E as <- <-. destruct P as (P1 & P2 & P3). rewrite P1. f_equal. refine (IH h _ l' _ C' S R'). split; auto.
    + destruct (regcomp s) as [p | | | ] eqn:Rc; injection E as <- <-; f_equal; refine (IH h _ l' _ C' S R'); auto.
      split; cbn [strings cache limit]; auto.
      * constructor; auto. exists s. auto.
      * cbn [map fst]. constructor; auto.
  - injection E as <- <-. eapply IH; eauto. now apply collect_kept.
  - injection E as <- <-. refine (IH h _ l' _ C' S R'). destruct (Z.leb_spec 0 n); [ | exact G]. split; auto. cbn [limit]. apply limit_pos; auto.
Qed.

(** Only the removal of the last entry goes wrong *)
Lemma run_safe : forall ops h st, kept h st -> Forall careful ops -> (forall a s, ~ In (Change a s) ops) -> run st ops <> Wild.
Proof.
  induction ops as [ | o ops IH]; intros h st G C N R; [discriminate | ].
  inversion C as [ | ? ? Co C']; subst. cbn [run] in R. pose proof G as [G1 G2 G3 G4].
  assert (N' : forall a s, ~ In (Change a s) ops) by (intros a s I; apply (N a s); now right).
  assert (K : forall st' r, step st o = Ok (st', r) -> exists h', kept h' st').
  { intros st' r E. destruct o as [a s | a s | a s | a | live | n]; cbn [step careful] in E, Co.
    - destruct (strings st a) eqn:Ea; [discriminate | ]. injection E as <- <-. exists (fun _ => None). split; cbn [strings cache limit]; auto; [discriminate | ].
      apply entries_upd; [exact G2 | ]. intros I. apply in_map_iff in I as ([b p] & Eb & Ib). rewrite Forall_forall in G2.
      destruct (G2 _ Ib) as (s' & X & _). cbn [fst] in *. congruence.
    - destruct (N a s). now left.
    - destruct Co.
    - destruct (strings st a) as [s | ] eqn:Ea; [ | discriminate].
      unfold compile in E. rewrite Ea in E. destruct (lookup_ok (strings st) a s Ea (cache st) [] G2 ltac:(constructor) G3 ltac:(intros [])) as (o & L & P).
      cbn [app] in P. rewrite L in E. cbn in E. exists h. destruct o as [[p c] | ].
      + injection E as <- <-. destruct P as (P1 & P2 & P3). split; auto.
      + destruct (regcomp s) as [p | | | ] eqn:Rc; injection E as <- <-; auto. split; cbn [strings cache limit]; auto.
        * constructor; auto. exists s. auto.
        * cbn [map fst]. constructor; auto.
    - injection E as <- <-. exists (fun b => if live b then h b else None). apply collect_kept. exact G.
    - injection E as <- <-. exists h. destruct (Z.leb_spec 0 n); [ | exact G]. split; auto. cbn [limit]. apply limit_pos; auto. }
  destruct (step st o) as [[st' r] | | | ] eqn:E; try discriminate.
  - destruct (K st' r eq_refl) as (h' & G'). specialize (IH h' st' G' C' N'). cbn in R. destruct (run st' ops) as [l' | | | ]; try discriminate. now apply IH.
  - clear R. destruct o as [a s | a s | a s | a | live | n]; cbn [step] in E.
    + destruct (strings st a); discriminate.
    + apply (N a s). left. reflexivity.
    + destruct (strings st a); discriminate.
    + destruct (strings st a) as [s | ] eqn:Ea; [ | discriminate].
      unfold compile in E. rewrite Ea in E. destruct (lookup_ok (strings st) a s Ea (cache st) [] G2 ltac:(constructor) G3 ltac:(intros [])) as (o & L & P).
      rewrite L in E. cbn in E. destruct o as [[p c] | ]; [discriminate | ]. destruct (regcomp s); discriminate.
    + discriminate.
    + discriminate.
Qed.
