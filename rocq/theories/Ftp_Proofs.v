(** Proofs about replies of the ftp program *)

From Coq Require Import ZArith List Bool Lia ZifyBool.
From Verif Require Import Ftp_Model Ftp_Spec.
Import ListNotations.
Open Scope Z_scope.

Lemma first_line_app : forall l r, ~ In 10 l -> first_line (l ++ 10 :: r) = l.
Proof.
  induction l as [|c l IH]; intros r H; [reflexivity|]. cbn [app first_line].
  replace (c =? 10) with false; [f_equal; apply IH; intros X; apply H; right; exact X|].
  symmetry. apply Z.eqb_neq. intros ->. apply H. left. reflexivity.
Qed.
Lemma after_line_app : forall l r, ~ In 10 l -> after_line (l ++ 10 :: r) = Some r.
Proof.
  induction l as [|c l IH]; intros r H; [reflexivity|]. cbn [app after_line].
  replace (c =? 10) with false; [apply IH; intros X; apply H; right; exact X|].
  symmetry. apply Z.eqb_neq. intros ->. apply H. left. reflexivity.
Qed.
Lemma first_line_none : forall l, ~ In 10 l -> first_line l = l.
Proof.
  induction l as [|c l IH]; intros H; [reflexivity|]. cbn [first_line].
  replace (c =? 10) with false; [f_equal; apply IH; intros X; apply H; right; exact X|].
  symmetry. apply Z.eqb_neq. intros ->. apply H. left. reflexivity.
Qed.
Lemma after_line_none : forall l, ~ In 10 l -> after_line l = None.
Proof.
  induction l as [|c l IH]; intros H; [reflexivity|]. cbn [after_line].
  replace (c =? 10) with false; [apply IH; intros X; apply H; right; exact X|].
  symmetry. apply Z.eqb_neq. intros ->. apply H. left. reflexivity.
Qed.

Lemma prompt_prefix : forall p q, prompt_here (p ++ q) = None -> prompt_here p = None.
Proof.
  intros p q H. do 4 (destruct p as [|? p]; [reflexivity|]). cbn in *. destruct (_ && _ && _ && _); [discriminate|reflexivity].
Qed.
Lemma prompt_line : forall l r, ~ In 10 l -> prompt_here l = None -> prompt_here (l ++ 10 :: r) = None.
Proof.
  intros l r N H. destruct l as [|a [|b [|c [|d l]]]]; cbn [app prompt_here] in *.
  - destruct r as [|x [|y [|z r]]]; reflexivity.
  - destruct r as [|x [|y r]]; try reflexivity. replace (10 =? 116) with false by reflexivity. rewrite andb_false_r. reflexivity.
  - destruct r as [|x r]; try reflexivity. replace (10 =? 112) with false by reflexivity. rewrite andb_false_r. reflexivity.
  - replace (10 =? 62) with false by reflexivity. rewrite andb_false_r. reflexivity.
  - destruct (_ && _ && _ && _); [discriminate|reflexivity].
Qed.
Lemma skip_prompts_none : forall fuel t, prompt_here t = None -> skip_prompts fuel t = t.
Proof. intros [|fuel] t H; cbn; [reflexivity|]. rewrite H. reflexivity. Qed.
Lemma skip_hashes_none : forall t, hd 0 t <> 35 -> skip_hashes t = t.
Proof. intros [|c t] H; [reflexivity|]. cbn in *. replace (c =? 35) with false by lia. reflexivity. Qed.

Section Filter.
Variable kind_of : list Z -> kind.
Variable asks : list Z -> bool.
Notation plain := (plain kind_of asks).
Notation handle := (handle kind_of).
Notation ftp_loop := (ftp_loop kind_of asks).

Lemma text_split : forall l ls t later, t ++ later = text_of (l :: ls) ->
  (exists r, t = l ++ 10 :: r /\ r ++ later = text_of ls) \/ (exists x, t ++ x = l).
Proof.
  intros l ls t later. revert l. induction t as [|c t IH]; intros l E.
  - right. exists l. reflexivity.
  - unfold text_of in E. cbn [map concat] in E. fold (text_of ls) in E. destruct l as [|d l].
    + cbn [app] in E. assert (c = 10 /\ t ++ later = text_of ls) as (-> & E') by (split; congruence).
      left. exists t. auto.
    + cbn [app] in E. assert (c = d /\ t ++ later = text_of (l :: ls)) as (-> & E').
      { split; [congruence|]. unfold text_of at 1. cbn [map concat]. fold (text_of ls). congruence. }
      destruct (IH l E') as [(r & -> & R)|(x & <-)]; [left; exists r; auto|right; exists x; reflexivity].
Qed.

Lemma handle_pending : forall s l, f_pending (handle s l) = f_pending s.
Proof. intros s l. unfold Ftp_Model.handle. destruct (kind_of l); reflexivity. Qed.

Lemma loop_run : forall ls, Forall plain ls -> forall fuel t later s, t ++ later = text_of ls -> (length t < fuel)%nat -> f_pending s = [] ->
  exists ls1 ls2 lf, ls = ls1 ++ ls2 /\ lf ++ later = text_of ls2 /\ ~ In 10 lf /\
    ftp_loop fuel s t = mkf (f_st (fold_left handle ls1 s)) lf (f_done (fold_left handle ls1 s)).
Proof.
  induction ls as [|l ls IH]; intros F fuel t later s E L P; (destruct fuel as [|fuel]; [lia|]).
  - cbn in E. apply app_eq_nil in E as (-> & ->). exists [], [], []. cbn. repeat split; auto.
    destruct s; cbn in *; subst; reflexivity.
  - inversion F as [|? ? Fl Fs]; subst. destruct Fl as (N & Pr & Ha & Re & As).
    destruct t as [|c t0]; [exists [], (l :: ls), []; cbn [app fold_left]; repeat split; auto; destruct s; cbn in *; subst; reflexivity|].
    cbn [Ftp_Model.ftp_loop]. remember (c :: t0) as t eqn:Et.
    destruct (text_split l ls t later E) as [(r & T & R)|(x & T)].
    + assert (PH : prompt_here t = None) by (rewrite T; apply prompt_line; assumption).
      rewrite (skip_prompts_none _ _ PH).
      assert (HH : hd 0 t <> 35) by (rewrite T; destruct l; [discriminate|exact Ha]).
      rewrite (skip_hashes_none _ HH). rewrite T. rewrite (first_line_app l r N), (after_line_app l r N).
      rewrite (As l [] (app_nil_r l)). cbv zeta.
      assert (Lr : (length r < fuel)%nat) by (rewrite T, app_length in L; cbn in L; lia).
      assert (Go : forall s', f_pending s' = [] -> s' = handle s l -> exists ls1 ls2 lf, l :: ls = ls1 ++ ls2 /\ lf ++ later = text_of ls2 /\ ~ In 10 lf /\
         ftp_loop fuel s' r = mkf (f_st (fold_left handle ls1 s)) lf (f_done (fold_left handle ls1 s))).
      { intros s' P' ->. destruct (IH Fs fuel r later (handle s l) R Lr P') as (a & b & lf & -> & Y & Z0 & D).
        exists (l :: a), b, lf. repeat split; auto. }
      assert (Pl : f_pending (handle s l) = []) by (rewrite handle_pending; exact P).
      destruct (kind_of l); try congruence; apply Go; auto.
    + assert (Nt : ~ In 10 t) by (intros X; apply N; rewrite <- T; apply in_or_app; left; exact X).
      assert (PH : prompt_here t = None) by (apply (prompt_prefix t x); rewrite T; exact Pr).
      rewrite (skip_prompts_none _ _ PH).
      assert (HH : hd 0 t <> 35) by (rewrite Et in *; rewrite <- T in Ha; exact Ha).
      rewrite (skip_hashes_none _ HH). rewrite (first_line_none t Nt), (after_line_none t Nt), (As t x T).
      subst t. exists [], (l :: ls), (c :: t0). cbn [app fold_left]. repeat split; auto.
Qed.

Lemma handle_same : forall ls s s', f_st s = f_st s' -> f_done s = f_done s' ->
  f_st (fold_left handle ls s) = f_st (fold_left handle ls s') /\ f_done (fold_left handle ls s) = f_done (fold_left handle ls s').
Proof.
  induction ls as [|l ls IH]; intros s s' A B; [auto|]. cbn [fold_left].
  apply IH; unfold Ftp_Model.handle; destruct (kind_of l); cbn; congruence.
Qed.

Lemma pieces_run : forall ls, Forall plain ls -> forall pieces later, concat pieces ++ later = text_of ls ->
  exists ls1 ls2 lf, ls = ls1 ++ ls2 /\ lf ++ later = text_of ls2 /\ ~ In 10 lf /\
    ftp_pieces kind_of asks pieces = mkf (f_st (fold_left handle ls1 ftp_commanded)) lf (f_done (fold_left handle ls1 ftp_commanded)).
Proof.
  intros ls F pieces. induction pieces as [|x pieces IH] using rev_ind; intros later E.
  - exists [], ls, []. cbn in *. repeat split; auto.
  - rewrite concat_app in E. cbn [concat] in E. rewrite app_nil_r, <- app_assoc in E.
    destruct (IH _ E) as (a & b & lf & -> & X & Nl & D). clear IH.
    unfold ftp_pieces. rewrite fold_left_app. cbn [fold_left]. fold (ftp_pieces kind_of asks pieces). rewrite D.
    unfold ftp_filter. cbn [f_pending f_st f_done]. rewrite app_assoc in X.
    apply Forall_app in F as (F1 & F2).
    destruct (loop_run b F2 (S (length (lf ++ x))) (lf ++ x) later
       (mkf (f_st (fold_left handle a ftp_commanded)) [] (f_done (fold_left handle a ftp_commanded))) X ltac:(lia) eq_refl)
      as (b1 & b2 & l2 & -> & X2 & N2 & D2).
    exists (a ++ b1), b2, l2. split; [rewrite app_assoc; reflexivity|]. split; [exact X2|]. split; [exact N2|].
    rewrite D2. rewrite fold_left_app.
    destruct (handle_same b1 (mkf (f_st (fold_left handle a ftp_commanded)) [] (f_done (fold_left handle a ftp_commanded)))
      (fold_left handle a ftp_commanded) eq_refl eq_refl) as (-> & ->). reflexivity.
Qed.

Lemma handle_status : forall ls s, Forall plain ls -> f_st (fold_left handle ls s) =
  fold_left (fun x l => match kind_of l with Good => FSuccess | Bad => FFailure | _ => x end) ls (f_st s).
Proof.
  induction ls as [|l ls IH]; intros s F; [reflexivity|]. inversion F as [|? ? Fl Fs]; subst. cbn [fold_left]. rewrite IH by assumption.
  f_equal. destruct Fl as (_ & _ & _ & R & _). unfold Ftp_Model.handle. destruct (kind_of l); cbn; congruence.
Qed.
Lemma handle_told : forall ls s, f_done (fold_left handle ls s) = rev (told kind_of ls) ++ f_done s.
Proof.
  induction ls as [|l ls IH]; intros s; [reflexivity|]. cbn [fold_left]. rewrite IH.
  unfold told. cbn [flat_map]. rewrite rev_app_distr, <- app_assoc. f_equal.
  unfold Ftp_Model.handle. destruct (kind_of l); reflexivity.
Qed.
End Filter.
