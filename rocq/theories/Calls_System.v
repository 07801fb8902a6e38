(** Two programs: proofs. *)

From Coq Require Import List Bool Arith Lia Permutation.
From Verif Require Import Calls_Model Calls_Spec Calls_Proofs.
Import ListNotations.

Lemma remove_nth_perm {A} : forall k (l : list A) x, nth_error l k = Some x -> Permutation l (x :: remove_nth k l).
Proof.
  unfold remove_nth. induction k as [|k IH]; intros [|y l] x E; try discriminate.
  - injection E as ->. reflexivity.
  - cbn [nth_error] in E. cbn [firstn app]. change (skipn (S (S k)) (y :: l)) with (skipn (S k) l).
    rewrite (IH l x E) at 1. apply perm_swap.
Qed.
Lemma flat_map_perm {A B} (f : A -> list B) l l' : Permutation l l' -> Permutation (flat_map f l) (flat_map f l').
Proof. apply Permutation_flat_map. Qed.

Section System.
  Variable V : Type.
  Variable lost_value : V.
  Variable no_such : nat -> V.
  Notation sys := (sys V).
  Notation noted := (noted V).
  Notation called := (called V).
  Notation wrote := (wrote V).

  Definition up_id (m : msg V) : list nat := match m with MCall _ (Some id) _ _ => [id] | _ => [] end.
  Definition job_id (j : job V) : list nat := match j_id V j with Some id => [id] | None => [] end.
  Definition down_ans (m : msg V) : list (nat * (bool * V)) := match m with MResult _ id ok v => [(id, (ok, v))] | _ => [] end.
  Definition end_ans (e : job V * (bool * V)) : list (nat * (bool * V)) :=
    match j_id V (fst e) with Some id => [(id, snd e)] | None => [] end.
  Definition call_ans (x : nat * nat * (bool * V)) : nat * (bool * V) := (fst (fst x), snd x).
  Definition job_msg (j : job V) : msg V := MCall V (j_id V j) (j_servant V j) (j_args V j).
  Definition is_call (m : msg V) : Prop := match m with MCall _ _ _ _ => True | _ => False end.
  Definition is_result (m : msg V) : Prop := match m with MResult _ _ _ _ => True | _ => False end.

  Record sinv (s : sys) : Prop := {
    i_cl : inv V (cl V s);
    i_data : tref 0 (datas V (cl V s)) = Some (true, map fst (table V (cl V s)));
    i_ids : Permutation (map fst (table V (cl V s)))
              (flat_map up_id (up V s) ++ flat_map job_id (work V s) ++ map fst (flat_map down_ans (down V s)));
    i_ans : Permutation (flat_map end_ans (ended V s)) (flat_map down_ans (down V s) ++ map call_ans (called (log V (cl V s))));
    i_fifo : rev (wrote (log V (cl V s))) = rev (taken V s) ++ up V s;
    i_up : Forall is_call (up V s);
    i_down : Forall is_result (down V s);
    i_jobs : Permutation (taken V s) (map job_msg (work V s ++ map fst (ended V s)));
    i_found : Forall (fun e => j_found V (fst e) = false -> snd e = (false, no_such (j_servant V (fst e)))) (ended V s)
  }.

  Lemma sinv_connected : sinv (connected V).
  Proof.
    constructor; cbn; try constructor.
    - reflexivity.
    - split; constructor.
  Qed.

  (** What a call does to the client when it is connected *)
  Lemma invoke_connected cb sv args c : tref 0 (datas V c) = Some (true, map fst (table V c)) -> inv V c ->
    exists c', invoke V sock0 cb sv args c = (Fine V c', [MCall V (Some (S (counter V c))) sv args]) /\
      table V c' = (S (counter V c), cb) :: table V c /\
      tref 0 (datas V c') = Some (true, map fst (table V c')) /\
      wrote (log V c') = MCall V (Some (S (counter V c))) sv args :: wrote (log V c) /\
      called (log V c') = called (log V c).
  Proof.
    intros D I. unfold invoke, record_pending_call, sock0. cbn [counter table datas log]. rewrite D. cbn [counter table datas log note].
    pose proof (tunset_fresh _ _ (inv_fresh V c I)) as FR.
    eexists. split; [reflexivity|]. cbn [counter table datas log].
    split; [cbn [note table]; unfold tset; rewrite FR; reflexivity|]. split; [|split; reflexivity].
    cbn [note datas table]. rewrite tref_tset. unfold tset. rewrite FR. reflexivity.
  Qed.

  Lemma move_inv mv s : sinv s -> sinv (move_step V no_such mv s).
  Proof.
    intros I. destruct mv as [cb sv args|sv args|known|k o|]; unfold move_step.
    - destruct (invoke_connected cb sv args (cl V s) (i_data s I) (i_cl s I)) as (c' & E & T & D & W & K).
      rewrite E. cbn [state_of].
      assert (IC : inv V c').
      { pose proof (proj1 (invoke_spec V sock0 cb sv args (cl V s) (i_cl s I))) as H. rewrite E in H. exact H. }
      destruct I. constructor; cbn [cl up work down taken ended]; auto.
      + rewrite T. cbn [map fst]. rewrite flat_map_app. cbn [flat_map up_id app].
        rewrite <- app_assoc. cbn [app]. rewrite i_ids0. apply Permutation_middle.
      + rewrite K. exact i_ans0.
      + rewrite W. cbn [rev]. rewrite i_fifo0, app_assoc. reflexivity.
      + apply Forall_app. split; [exact i_up0|]. constructor; [exact Logic.I|constructor].
    - unfold invoke_oneway. cbn [state_of]. destruct I. constructor; cbn [cl up work down taken ended note log table datas]; auto.
      + rewrite flat_map_app. cbn [flat_map up_id app]. rewrite app_nil_r. exact i_ids0.
      + change (wrote (Wrote V sock0 (MCall V None sv args) :: log V (cl V s))) with (MCall V None sv args :: wrote (log V (cl V s))).
        cbn [rev]. rewrite i_fifo0, app_assoc. reflexivity.
      + apply Forall_app. split; [exact i_up0|]. constructor; [exact Logic.I|constructor].
    - destruct (up V s) as [|[id sv args|id ok v] up'] eqn:EU; [exact I| |].
      + destruct I. rewrite EU in *. constructor; cbn [cl up work down taken ended]; auto.
        * cbn [flat_map] in *. rewrite i_ids0. cbn [up_id]. unfold job_id at 2. cbn [j_id].
          destruct id as [id|]; cbn [app]; [|reflexivity]. apply Permutation_middle.
        * rewrite i_fifo0. cbn [rev]. rewrite <- app_assoc. reflexivity.
        * inversion i_up0; auto.
        * cbn [app map]. unfold job_msg at 1. cbn [j_id j_servant j_args]. constructor. exact i_jobs0.
      + exfalso. destruct I. rewrite EU in i_up0. inversion i_up0; subst. exact H1.
    - destruct (nth_error (work V s) k) as [j|] eqn:EN; [|exact I].
      pose proof (remove_nth_perm k _ j EN) as P. destruct I.
      set (oc := outcome V no_such j o).
      assert (RS : flat_map down_ans (response V j oc) = end_ans (j, oc)).
      { unfold response, end_ans. cbn [fst]. destruct (j_id V j); [|reflexivity]. cbn [flat_map down_ans app]. destruct oc; reflexivity. }
      assert (RI : map fst (flat_map down_ans (response V j oc)) = job_id j).
      { rewrite RS. unfold end_ans, job_id. cbn [fst]. destruct (j_id V j); reflexivity. }
      constructor; cbn [cl up work down taken ended]; auto.
      + rewrite i_ids0. apply Permutation_app_head. rewrite (flat_map_perm job_id _ _ P). cbn [flat_map].
        rewrite flat_map_app, map_app, RI. rewrite <- app_assoc.
        rewrite (Permutation_app_comm (job_id j)). rewrite <- app_assoc. reflexivity.
      + cbn [flat_map]. rewrite flat_map_app, RS, i_ans0. rewrite app_assoc. apply Permutation_app_tail. apply Permutation_app_comm.
      + apply Forall_app. split; [exact i_down0|]. unfold response. destruct (j_id V j); [constructor; [exact Logic.I|]|]; constructor.
      + rewrite i_jobs0. apply Permutation_map. cbn [map fst]. rewrite P at 1. cbn [app]. apply Permutation_middle.
      + constructor; [|exact i_found0]. cbn [fst snd]. intros F. unfold oc, outcome. rewrite F. reflexivity.
    - destruct (down V s) as [|[id sv args|id ok v] down'] eqn:ED; [exact I| |].
      + exfalso. destruct I. rewrite ED in i_down0. inversion i_down0; subst. exact H1.
      + pose proof (dispatch_spec V sock0 id ok v (cl V s) (i_cl s I)) as (IC & N & W & K).
        destruct I. rewrite ED in *. cbn [flat_map down_ans app map fst] in *.
        assert (IN : In id (map fst (table V (cl V s)))).
        { eapply Permutation_in; [apply Permutation_sym, i_ids0|]. apply in_or_app. right. apply in_or_app. right. left. reflexivity. }
        destruct (tref id (table V (cl V s))) as [cb|] eqn:ET; [|apply tref_None in ET; contradiction].
        pose proof (inv_table V _ i_cl0) as ND. pose proof (tunset_perm id _ cb ND ET) as P.
        constructor; cbn [cl up work down taken ended]; auto.
        * unfold dispatch_pending_call, sock0. rewrite i_data0. cbn [table]. rewrite ET. cbn [state_of note datas table].
          rewrite tref_tset, tunset_fst. reflexivity.
        * unfold dispatch_pending_call, sock0. rewrite i_data0. cbn [table]. rewrite ET. cbn [state_of note table].
          apply (Permutation_map fst) in P. cbn [map fst] in P. apply (Permutation_cons_inv (a := id)). rewrite <- P, i_ids0.
          symmetry. rewrite !app_assoc. apply Permutation_middle.
        * destruct K as [K|(cb' & _ & K)].
          -- exfalso. unfold dispatch_pending_call, sock0 in K. rewrite i_data0 in K. cbn [table] in K. rewrite ET in K.
             cbn [state_of note log] in K.
             change (called (Called V id cb ok v :: log V (cl V s))) with ((id, cb, (ok, v)) :: called (log V (cl V s))) in K.
             apply (f_equal (@length _)) in K. cbn [length] in K. lia.
          -- rewrite K. cbn [map]. unfold call_ans at 1. cbn [fst snd]. rewrite i_ans0. apply Permutation_middle.
        * rewrite W. exact i_fifo0.
        * inversion i_down0; auto.
  Qed.

  Lemma runs_inv mvs : sinv (runs V no_such mvs).
  Proof.
    unfold runs. generalize sinv_connected. generalize (connected V). induction mvs as [|mv mvs IH]; intros s I; [exact I|].
    cbn [fold_left]. apply IH, move_inv, I.
  Qed.

  Lemma answered s id cb ok v : sinv s -> In (id, cb, (ok, v)) (called (log V (cl V s))) ->
    exists j, In (j, (ok, v)) (ended V s) /\ j_id V j = Some id /\ In (job_msg j) (wrote (log V (cl V s))).
  Proof.
    intros I C. destruct I.
    assert (J : In (id, (ok, v)) (flat_map end_ans (ended V s))).
    { eapply Permutation_in; [apply Permutation_sym, i_ans0|]. apply in_or_app. right.
      apply in_map_iff. exists (id, cb, (ok, v)). auto. }
    apply in_flat_map in J. destruct J as ([j o] & J & K). unfold end_ans in K. cbn [fst snd] in K.
    destruct (j_id V j) as [i|] eqn:EJ; [|destruct K]. destruct K as [K|[]]. injection K as -> ->.
    exists j. split; [exact J|]. split; [exact EJ|]. apply in_rev. rewrite i_fifo0. apply in_or_app. left. apply -> in_rev.
    eapply Permutation_in; [apply Permutation_sym, i_jobs0|]. apply in_map. apply in_or_app. right.
    apply in_map_iff. exists (j, (ok, v)). auto.
  Qed.

  Lemma quiet_all s : sinv s -> quiet V s ->
    table V (cl V s) = [] /\ Permutation (noted (log V (cl V s))) (map fst (called (log V (cl V s)))) /\
    Permutation (wrote (log V (cl V s))) (map (fun e => job_msg (fst e)) (ended V s)).
  Proof.
    intros I (U & W & D). destruct I. rewrite U, W, D in *. cbn [flat_map map app] in *.
    apply Permutation_sym, Permutation_nil in i_ids0. apply map_eq_nil in i_ids0. split; [exact i_ids0|]. split.
    - destruct i_cl0 as (P & _). rewrite i_ids0 in P. exact P.
    - rewrite app_nil_r in i_fifo0. rewrite (Permutation_rev (wrote _)), i_fifo0, <- Permutation_rev, i_jobs0, map_map. reflexivity.
  Qed.

  (** Without new calls everything comes to rest. *)
  Notation no_new := (no_new V).
  Lemma drains (known : nat -> bool) (o : bool * V) : forall n s, sinv s ->
    3 * length (up V s) + 2 * length (work V s) + length (down V s) <= n ->
    exists mvs, Forall no_new mvs /\ quiet V (fold_left (fun s mv => move_step V no_such mv s) mvs s).
  Proof.
    induction n as [|n IH]; intros s I L.
    - exists []. split; [constructor|]. cbn [fold_left]. unfold quiet.
      destruct (up V s), (work V s), (down V s); cbn [length] in L; try lia. auto.
    - assert (GO : forall mv, no_new mv -> (let s' := move_step V no_such mv s in
        3 * length (up V s') + 2 * length (work V s') + length (down V s') <= n) ->
        exists mvs, Forall no_new mvs /\ quiet V (fold_left (fun s mv => move_step V no_such mv s) mvs s)).
      { intros mv N M. destruct (IH _ (move_inv mv s I) M) as (mvs & F & Q). exists (mv :: mvs).
        split; [constructor; [exact N|exact F]|exact Q]. }
      destruct (down V s) as [|m d] eqn:ED.
      + destruct (work V s) as [|j w] eqn:EW.
        * destruct (up V s) as [|m u] eqn:EU.
          -- exists []. split; [constructor|]. cbn [fold_left]. unfold quiet. auto.
          -- apply (GO (MvTake V known) Logic.I). unfold move_step. rewrite EU.
             destruct m; cbn [up work down]; rewrite ?EW, ?ED; cbn [length] in *; lia.
        * apply (GO (MvEnd V 0 o) Logic.I). unfold move_step. rewrite EW. cbn [nth_error up work down].
          unfold remove_nth. cbn [firstn skipn app]. rewrite ED. unfold response. cbn [app].
          destruct (j_id V j); cbn [length] in *; lia.
      + apply (GO (MvRead V) Logic.I). unfold move_step. rewrite ED.
        destruct m; cbn [up work down]; cbn [length] in *; lia.
  Qed.
End System.
