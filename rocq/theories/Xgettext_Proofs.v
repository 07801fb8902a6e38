(** Proofs about the collection of strings *)

From Coq Require Import ZArith List Bool Lia.
From Verif Require Import Reader_Model Xgettext_Model Xgettext_Spec.
Import ListNotations.
Open Scope Z_scope.

(** *** Splitting *)
Fixpoint spl (t : list Z) : list Z :=
  match t with
  | [] => []
  | c :: r =>
      match r with
      | d :: r' => if (c =? 92) && (d =? 110) then 92 :: 110 :: 34 :: 10 :: 34 :: spl r' else c :: spl r
      | [] => [c]
      end
  end.
Lemma match_none : forall t, match_n t = None -> spl t = t.
Proof.
  induction t as [|c r IH]; intros H; [reflexivity|]. cbn [match_n spl] in *. destruct r as [|d r']; [reflexivity|].
  destruct ((c =? 92) && (d =? 110)); [discriminate|]. f_equal. apply IH. destruct (match_n (d :: r')); [discriminate|reflexivity].
Qed.
Lemma match_some : forall t i, match_n t = Some i -> exists a b, t = a ++ 92 :: 110 :: b /\ length a = i /\ spl t = a ++ 92 :: 110 :: 34 :: 10 :: 34 :: spl b.
Proof.
  induction t as [|c r IH]; intros i H; [discriminate|]. cbn [match_n spl] in *. destruct r as [|d r']; [discriminate|].
  destruct ((c =? 92) && (d =? 110)) eqn:E.
  - apply andb_true_iff in E as (E1 & E2). apply Z.eqb_eq in E1, E2. subst. injection H as <-. exists [], r'. auto.
  - destruct (match_n (d :: r')) as [j|]; [|discriminate]. injection H as <-. destruct (IH j eq_refl) as (a & b & E1 & E2 & E3).
    exists (c :: a), b. rewrite E1 in *. split; [reflexivity|]. split; [cbn; lia|]. cbn [app]. f_equal. exact E3.
Qed.
Lemma split_out_spl : forall fuel pre t, (length t <= fuel)%nat -> split_out fuel (length pre) (pre ++ t) = pre ++ spl t.
Proof.
  induction fuel as [|fuel IH]; intros pre t L.
  - destruct t; [reflexivity|cbn in L; lia].
  - cbn [split_out]. destruct (Nat.ltb (length pre) (length (pre ++ t))) eqn:E.
    + rewrite skipn_app, skipn_all, Nat.sub_diag. cbn [app]. change (skipn 0 t) with t.
      destruct (match_n t) as [i|] eqn:M; [|rewrite (match_none t M); reflexivity].
      destruct (match_some t i M) as (a & b & -> & <- & ->). rewrite app_length in L. cbn [length] in L.
      replace (firstn (length pre + length a) (pre ++ a ++ 92 :: 110 :: b)) with (pre ++ a).
      2:{ rewrite app_assoc, <- app_length, firstn_app, firstn_all, Nat.sub_diag. symmetry. apply app_nil_r. }
      replace (skipn (length pre + length a + 2) (pre ++ a ++ 92 :: 110 :: b)) with b.
      2:{ replace (pre ++ a ++ 92 :: 110 :: b) with ((pre ++ a ++ [92; 110]) ++ b) by (rewrite <- !app_assoc; reflexivity).
          replace (length pre + length a + 2)%nat with (length (pre ++ a ++ [92; 110])) by (rewrite !app_length; cbn; lia).
          rewrite skipn_app, skipn_all, Nat.sub_diag. reflexivity. }
      replace (length pre + length a + 2 + 3)%nat with (length (pre ++ a ++ [92; 110; 34; 10; 34])) by (rewrite !app_length; cbn; lia).
      replace ((pre ++ a) ++ 92 :: 110 :: 34 :: 10 :: 34 :: b) with ((pre ++ a ++ [92; 110; 34; 10; 34]) ++ b) by (rewrite <- !app_assoc; reflexivity).
      rewrite IH by lia. rewrite <- !app_assoc. reflexivity.
    + apply Nat.ltb_ge in E. rewrite app_length in E. destruct t; [reflexivity|cbn in E; lia].
Qed.
Lemma message_spl : forall s, message s = spl (print_string EscNewlines s).
Proof. intros s. unfold message. apply (split_out_spl _ [] (print_string EscNewlines s)). lia. Qed.

(** *** Reading *)
Lemma spl_plain : forall c r, c <> 92 -> spl (c :: r) = c :: spl r.
Proof. intros c r N. cbn [spl]. destruct r as [|d r]; [reflexivity|]. replace (c =? 92) with false by (symmetry; apply Z.eqb_neq, N). reflexivity. Qed.
Lemma spl_esc : forall e r, e <> 110 -> spl (92 :: e :: r) = 92 :: spl (e :: r).
Proof. intros e r N. cbn [spl]. replace (e =? 110) with false by (symmetry; apply Z.eqb_neq, N). rewrite andb_false_r. reflexivity. Qed.

Lemma pc_cases : forall c,
  (c = 10 /\ print_char EscNewlines c = [92; 110]) \/ (c = 92 /\ print_char EscNewlines c = [92; 92]) \/
  (exists e, print_char EscNewlines c = [92; e] /\ unescape e = Some c /\ e <> 110 /\ e <> 92 ) \/
  (print_char EscNewlines c = [c] /\ c <> 10 /\ c <> 92 /\ c <> 34).
Proof.
  intros c. destruct (Z.eq_dec c 10) as [->|N1]; [left; auto|]. destruct (Z.eq_dec c 92) as [->|N2]; [right; left; auto|]. right. right.
  destruct (Z.eq_dec c 9) as [->|N3]; [left; exists 116; repeat split; discriminate|].
  destruct (Z.eq_dec c 13) as [->|N4]; [left; exists 114; repeat split; discriminate|].
  destruct (Z.eq_dec c 12) as [->|N5]; [left; exists 102; repeat split; discriminate|].
  destruct (Z.eq_dec c 34) as [->|N6]; [left; exists 34; repeat split; discriminate|].
  right. split; [|auto]. unfold print_char, one_of. cbn [existsb andb].
  repeat match goal with N : c <> ?x |- _ => apply Z.eqb_neq in N; try rewrite N; rewrite ?(Z.eqb_sym x c), ?N; clear N end. reflexivity.
Qed.

Lemma step_esc : forall fuel e c r, unescape e = Some c -> read_inside (S fuel) (92 :: e :: r) = put c (read_inside fuel r).
Proof. intros fuel e c r H. cbn [read_inside]. rewrite H. reflexivity. Qed.
Lemma step_join : forall fuel r, read_inside (S fuel) (34 :: 10 :: 34 :: r) = read_inside fuel r.
Proof. reflexivity. Qed.
Lemma step_plain : forall fuel c r, c <> 34 -> c <> 92 -> c <> 10 -> read_inside (S fuel) (c :: r) = put c (read_inside fuel r).
Proof.
  intros fuel c r N1 N2 N3. cbn [read_inside]. destruct c as [|p|p]; try reflexivity.
  do 7 (try (destruct p as [p|p|]; try reflexivity)); congruence.
Qed.

Definition inside (s : list Z) : list Z := concat (map (print_char EscNewlines) s) ++ [34].
Lemma read_end : forall fuel rest, hd 0 rest <> 34 -> read_inside (S fuel) (34 :: 10 :: rest) = Some ([], 10 :: rest).
Proof.
  intros fuel rest H. cbn [read_inside]. destruct rest as [|c rest]; [reflexivity|]. cbn in H. destruct c as [|p|p]; try reflexivity.
  do 7 (try (destruct p as [p|p|]; try reflexivity)); congruence.
Qed.
Lemma read_inside_message : forall n s fuel rest, (length s <= n)%nat -> hd 0 rest <> 34 ->
  (length (spl (inside s) ++ 10%Z :: rest) <= fuel)%nat ->
  read_inside fuel (spl (inside s) ++ 10 :: rest) = Some (s, 10 :: rest).
Proof.
  induction n as [|n IH]; intros s fuel rest L H F.
  - destruct s; [|cbn in L; lia]. cbn in F. destruct fuel as [|fuel]; [lia|]. cbn [inside map concat app spl]. apply read_end, H.
  - destruct s as [|c s]; [cbn in F; destruct fuel as [|fuel]; [lia|]; cbn [inside map concat app spl]; apply read_end, H|].
    cbn [length] in L.
    assert (I : inside (c :: s) = print_char EscNewlines c ++ inside s) by (unfold inside; cbn [map concat]; rewrite <- app_assoc; reflexivity).
    rewrite I in *. destruct (pc_cases c) as [(-> & P)|[(-> & P)|[(e & P & U & N1 & N2)|(P & N1 & N2 & N3)]]]; rewrite P in *; cbn [app] in *.
    + change (spl (92 :: 110 :: inside s)) with (92 :: 110 :: 34 :: 10 :: 34 :: spl (inside s)) in *. cbn [app length] in *.
      destruct fuel as [|[|fuel]]; try lia. rewrite (step_esc _ 110 10) by reflexivity. rewrite step_join.
      rewrite IH by (auto; lia). reflexivity.
    + rewrite spl_esc in * by discriminate. destruct s as [|d s].
      * change (spl (92 :: inside [])) with [92; 34] in *. cbn [app length] in *. destruct fuel as [|[|fuel]]; try lia.
        rewrite (step_esc _ 92 92) by reflexivity. rewrite read_end by exact H. reflexivity.
      * assert (I2 : inside (d :: s) = print_char EscNewlines d ++ inside s) by (unfold inside; cbn [map concat]; rewrite <- app_assoc; reflexivity).
        destruct (Z.eq_dec d 110) as [->|Nd].
        -- rewrite I2 in *. change (print_char EscNewlines 110) with [110] in *. cbn [app] in *.
           change (spl (92 :: 110 :: inside s)) with (92 :: 110 :: 34 :: 10 :: 34 :: spl (inside s)) in *. cbn [app length] in *.
           destruct fuel as [|[|[|fuel]]]; try lia. rewrite (step_esc _ 92 92) by reflexivity.
           rewrite step_plain by discriminate. rewrite step_join. rewrite IH by (auto; lia). reflexivity.
        -- assert (Hd : exists x r, inside (d :: s) = x :: r /\ x <> 110).
           { rewrite I2. destruct (pc_cases d) as [(-> & Q)|[(-> & Q)|[(e & Q & _)|(Q & _)]]]; rewrite Q; cbn [app]; eexists; eexists; (split; [reflexivity|]); [discriminate|discriminate|discriminate|exact Nd]. }
           destruct Hd as (x & r & Hx & Nx).
           assert (Sp : spl (92 :: inside (d :: s)) = 92 :: spl (inside (d :: s))) by (rewrite Hx; apply spl_esc, Nx).
           rewrite Sp in *. cbn [app length] in F. cbn [app]. destruct fuel as [|fuel]; [lia|].
           rewrite (step_esc _ 92 92) by reflexivity. rewrite IH by (auto; lia). reflexivity.
    + rewrite spl_esc in * by exact N1. rewrite spl_plain in * by exact N2. cbn [app length] in *. destruct fuel as [|fuel]; [lia|].
      rewrite (step_esc _ e c _ U). rewrite IH by (auto; lia). reflexivity.
    + rewrite spl_plain in * by exact N2. cbn [app length] in *. destruct fuel as [|fuel]; [lia|].
      rewrite step_plain by assumption. rewrite IH by (auto; lia). reflexivity.
Qed.
Lemma message_means : forall s, means (message s) s.
Proof.
  intros s rest H. rewrite message_spl. unfold print_string. change ([34] ++ concat (map (print_char EscNewlines) s) ++ [34]) with (34 :: inside s).
  rewrite spl_plain by discriminate. cbn [app read_message]. apply (read_inside_message (length s)); [lia|exact H|cbn [length]; lia].
Qed.

(** *** Registering *)
Lemma firsts_in : forall l x, In x (firsts l) <-> In x l.
Proof.
  induction l as [|y l IH]; intros x; [tauto|]. cbn [firsts In]. rewrite filter_In, IH. destruct (bytes_dec x y) as [->|N]; [tauto|].
  split; [tauto|]. intros [->|I]; [tauto|]. right. auto.
Qed.
Lemma firsts_snoc : forall l x, firsts (l ++ [x]) = if in_dec bytes_dec x l then firsts l else firsts l ++ [x].
Proof.
  induction l as [|y l IH]; intros x; [reflexivity|]. cbn [app firsts]. rewrite IH.
  destruct (in_dec bytes_dec x l) as [I|I]; destruct (in_dec bytes_dec x (y :: l)) as [J|J]; try reflexivity.
  - exfalso. apply J. right. exact I.
  - destruct J as [->|J]; [|contradiction]. rewrite filter_app. cbn [filter]. destruct (bytes_dec x x); [|congruence]. rewrite app_nil_r. reflexivity.
  - rewrite filter_app. cbn [filter]. destruct (bytes_dec x y) as [->|N]; [exfalso; apply J; left; reflexivity|]. reflexivity.
Qed.
Lemma firsts_nodup : forall l, NoDup (firsts l).
Proof.
  induction l as [|x l IH]; [constructor|]. cbn [firsts]. constructor; [|apply NoDup_filter, IH].
  rewrite filter_In. destruct (bytes_dec x x); [intros (_ & X); discriminate|congruence].
Qed.
Lemma files_snoc : forall s regs f s', files_of s (regs ++ [(f, s')]) = if bytes_dec s' s then files_of s regs ++ [f] else files_of s regs.
Proof.
  intros s regs f s'. unfold files_of. rewrite filter_app, map_app. cbn [filter snd]. destruct (bytes_dec s' s); cbn; [reflexivity|apply app_nil_r].
Qed.
Lemma cell_map : forall g keys s, cell s (map (fun x => (x, g x)) keys) = if in_dec bytes_dec s keys then Some (g s) else None.
Proof.
  intros g. induction keys as [|x keys IH]; intros s; [reflexivity|]. cbn [map cell]. rewrite IH.
  destruct (bytes_dec x s) as [->|N].
  - destruct (in_dec bytes_dec s (s :: keys)) as [|J]; [reflexivity|exfalso; apply J; left; reflexivity].
  - destruct (in_dec bytes_dec s keys) as [I|I]; destruct (in_dec bytes_dec s (x :: keys)) as [J|J]; try reflexivity.
    + exfalso. apply J. right. exact I.
    + destruct J; [congruence|contradiction].
Qed.
Lemma set_cell_map : forall g h s keys, NoDup keys -> In s keys -> (forall x, x <> s -> h x = g x) ->
  set_cell s (h s) (map (fun x => (x, g x)) keys) = map (fun x => (x, h x)) keys.
Proof.
  intros g h s. induction keys as [|x keys IH]; intros N I E; [destruct I|]. inversion N as [|? ? N1 N2]; subst. cbn [map set_cell].
  destruct (bytes_dec x s) as [->|D].
  - f_equal. apply map_ext_in. intros a A. f_equal. symmetry. apply E. intros ->. contradiction.
  - destruct I as [->|I]; [congruence|]. rewrite (E x D). f_equal. apply IH; assumption.
Qed.
Lemma nodup_rev : forall l : list (list Z), NoDup l -> NoDup (rev l).
Proof. intros l H. apply NoDup_rev, H. Qed.
Lemma found_is : forall regs, fold_left register regs [] = rev (expected regs).
Proof.
  intros regs. induction regs as [|(f, s) regs IH] using rev_ind; [reflexivity|].
  rewrite fold_left_app. cbn [fold_left]. rewrite IH. unfold expected. rewrite <- !map_rev. unfold register.
  rewrite (cell_map (fun s => rev (firsts (files_of s regs)))). rewrite map_app. cbn [map snd]. rewrite firsts_snoc.
  destruct (in_dec bytes_dec s (rev (firsts (map snd regs)))) as [I|I]; rewrite <- in_rev, firsts_in in I;
    (destruct (in_dec bytes_dec s (map snd regs)) as [J|J]; [|try contradiction]); try contradiction.
  - destruct (in_dec bytes_dec f (rev (firsts (files_of s regs)))) as [K|K].
    + apply map_ext. intros x. f_equal. rewrite files_snoc. destruct (bytes_dec s x) as [<-|D]; [|reflexivity].
      rewrite firsts_snoc. rewrite <- in_rev, firsts_in in K. destruct (in_dec bytes_dec f (files_of s regs)); [reflexivity|contradiction].
    + rewrite <- in_rev, firsts_in in K.
      pose (h := fun x => rev (firsts (files_of x (regs ++ [(f, s)])))).
      assert (Hs : f :: rev (firsts (files_of s regs)) = h s).
      { unfold h. rewrite files_snoc. destruct (bytes_dec s s); [|congruence]. rewrite firsts_snoc.
        destruct (in_dec bytes_dec f (files_of s regs)); [contradiction|]. rewrite rev_app_distr. reflexivity. }
      rewrite Hs. rewrite (set_cell_map (fun s => rev (firsts (files_of s regs))) h s); [reflexivity| | |].
      * apply nodup_rev, firsts_nodup.
      * rewrite <- in_rev, firsts_in. exact J.
      * intros x D. unfold h. rewrite files_snoc. destruct (bytes_dec s x); [congruence|reflexivity].
  - rewrite rev_app_distr. cbn [rev app map].
    assert (E0 : files_of s regs = []).
    { unfold files_of. destruct (filter (fun r => if bytes_dec (snd r) s then true else false) regs) as [|r l] eqn:E; [reflexivity|].
      exfalso. apply J. assert (R : In r (filter (fun r => if bytes_dec (snd r) s then true else false) regs)) by (rewrite E; left; reflexivity).
      apply filter_In in R as (R1 & R2). destruct (bytes_dec (snd r) s) as [<-|]; [|discriminate]. apply in_map, R1. }
    f_equal.
    + f_equal. rewrite files_snoc. destruct (bytes_dec s s); [|congruence]. rewrite E0. reflexivity.
    + apply map_ext_in. intros x X. f_equal. rewrite files_snoc. rewrite <- in_rev, firsts_in in X.
      destruct (bytes_dec s x) as [->|]; [contradiction|reflexivity].
Qed.
Lemma entries_mean : forall l, messages (concat (map entry l)) l.
Proof.
  induction l as [|(s, fs) l IH]; [constructor|]. cbn [map concat]. unfold entry at 1. cbn [fst snd]. rewrite <- !app_assoc.
  apply Ms_entry; [apply message_means|exact IH].
Qed.
