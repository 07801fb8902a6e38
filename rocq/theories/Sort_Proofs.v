From Coq Require Import ZArith List Bool Arith Lia Sorting.Permutation Sorting.Sorted.
From Verif Require Import Lists_Model Lists_Spec Lists_Proofs Sort_Model Sort_Spec.
Import ListNotations.

Section Proofs.
  Variable pred : val -> val -> bool.
  Notation cell := (nat * val)%type.

  (** The functional merge sort on cells *)
  Fixpoint merge (a : list cell) : list cell -> list cell :=
    fix merge_b (b : list cell) : list cell :=
      match a, b with
      | [], _ => b
      | _, [] => a
      | x :: a', y :: b' => if pred (snd y) (snd x) then y :: merge_b b' else x :: merge a' b
      end.

  Lemma merge_eq : forall a b, merge a b =
    match a, b with
    | [], _ => b
    | _, [] => a
    | x :: a', y :: b' => if pred (snd y) (snd x) then y :: merge a b' else x :: merge a' b
    end.
  Proof. intros [|x a] [|y b]; reflexivity. Qed.

  Lemma merge_nil_r : forall a, merge a [] = a.
  Proof. intros [|x a]; reflexivity. Qed.

  Lemma merge_perm : forall a b, Permutation (a ++ b) (merge a b).
  Proof.
    induction a as [|x a IHa]; [intros []; auto|]. induction b as [|y b IHb].
    - rewrite app_nil_r, merge_nil_r. auto.
    - rewrite merge_eq. destruct (pred (snd y) (snd x)).
      + rewrite <- IHb. symmetry. apply Permutation_middle.
      + simpl. rewrite <- IHa. auto.
  Qed.

  Section Order.
    Hypothesis SWO : strict_weak_order pred.

    (** The negation of the order read backwards is transitive. *)
    Lemma le_trans : forall x y z, pred y x = false -> pred z y = false -> pred z x = false.
    Proof.
      destruct SWO as (I & T & E). intros x y z H1 H2. destruct (pred z x) eqn:H3; auto.
      destruct (pred x y) eqn:H4.
      - rewrite (T z x y H3 H4) in H2. discriminate.
      - destruct (pred y z) eqn:H5.
        + rewrite (T y z x H5 H3) in H1. discriminate.
        + destruct (E x y z H4 H1 H5 H2) as (_ & X). congruence.
    Qed.

    Lemma lt_le : forall x y, pred x y = true -> pred y x = false.
    Proof.
      destruct SWO as (I & T & E). intros x y H. destruct (pred y x) eqn:H'; auto.
      pose proof (T x y x H H') as X. rewrite I in X. discriminate.
    Qed.

    Lemma merge_in_order : forall a b, in_order pred a -> in_order pred b -> in_order pred (merge a b).
    Proof.
      induction a as [|x a IHa]; [intros []; auto|]. induction b as [|y b IHb]; intros Ha Hb.
      - rewrite merge_nil_r. auto.
      - rewrite merge_eq. inversion Ha as [|? ? Sa Fa]; subst. inversion Hb as [|? ? Sb Fb]; subst.
        destruct (pred (snd y) (snd x)) eqn:P.
        + constructor; [apply IHb; auto|]. rewrite Forall_forall in *. intros c Hc.
          apply (Permutation_in _ (Permutation_sym (merge_perm (x :: a) b))) in Hc.
          apply in_app_iff in Hc. destruct Hc as [[<-|Hc]|Hc].
          * apply lt_le. exact P.
          * apply (le_trans _ (snd x)); auto. apply lt_le. exact P.
          * auto.
        + constructor; [apply IHa; auto|]. rewrite Forall_forall in *. intros c Hc.
          apply (Permutation_in _ (Permutation_sym (merge_perm a (y :: b)))) in Hc.
          apply in_app_iff in Hc. destruct Hc as [Hc|[<-|Hc]]; auto.
          apply (le_trans _ (snd y)); auto.
    Qed.

    Lemma equiv_lt : forall x c d, equiv pred x c = true -> equiv pred x d = true -> pred (snd c) (snd d) = false.
    Proof.
      intros x c d H1 H2. unfold equiv in *. apply andb_true_iff in H1, H2.
      destruct H1 as (A1 & A2), H2 as (B1 & B2). apply negb_true_iff in A1, A2, B1, B2.
      destruct SWO as (I & T & E). apply (E (snd c) x (snd d)); auto.
    Qed.

    Lemma filter_none : forall x (l : list cell), Forall (fun c => equiv pred x c = false) l -> filter (equiv pred x) l = [].
    Proof. intros x l H. induction H; simpl; auto. rewrite H. auto. Qed.

    Lemma merge_stable : forall x a b, in_order pred a -> in_order pred b ->
      filter (equiv pred x) (merge a b) = filter (equiv pred x) a ++ filter (equiv pred x) b.
    Proof.
      intros x. induction a as [|c a IHa]; [intros []; auto|]. induction b as [|d b IHb]; intros Ha Hb.
      - rewrite merge_nil_r, app_nil_r. auto.
      - rewrite merge_eq. inversion Ha as [|? ? Sa Fa]; subst. inversion Hb as [|? ? Sb Fb]; subst.
        destruct (pred (snd d) (snd c)) eqn:P.
        + (* d is strictly below everything in c :: a *)
          change (filter (equiv pred x) (d :: merge (c :: a) b)) with
            (if equiv pred x d then d :: filter (equiv pred x) (merge (c :: a) b)
             else filter (equiv pred x) (merge (c :: a) b)).
          rewrite IHb by auto.
          change (filter (equiv pred x) (d :: b)) with
            (if equiv pred x d then d :: filter (equiv pred x) b else filter (equiv pred x) b).
          destruct (equiv pred x d) eqn:Q; auto.
          assert (N : filter (equiv pred x) (c :: a) = []).
          { apply filter_none. constructor.
            - destruct (equiv pred x c) eqn:R; auto. rewrite (equiv_lt x d c Q R) in P. discriminate.
            - rewrite Forall_forall in *. intros e He. destruct (equiv pred x e) eqn:R; auto.
              pose proof (Fa e He) as L. pose proof (equiv_lt x d e Q R) as L2.
              pose proof (le_trans _ _ _ L L2). congruence. }
          rewrite N. reflexivity.
        + simpl. rewrite IHa by auto. simpl. destruct (equiv pred x c); reflexivity.
    Qed.
  End Order.

  Fixpoint msort (fuel : nat) (l : list cell) : list cell :=
    match fuel with
    | 0 => l
    | S fuel' =>
      if length l <? 2 then l
      else merge (msort fuel' (firstn (length l / 2) l)) (msort fuel' (skipn (length l / 2) l))
    end.

  Lemma msort_perm : forall fuel l, Permutation l (msort fuel l).
  Proof.
    induction fuel; intros l; simpl; auto. destruct (length l <? 2); auto.
    rewrite <- merge_perm, <- !IHfuel, firstn_skipn. auto.
  Qed.

  Lemma half_lt : forall n, 2 <= n -> 1 <= n / 2 /\ n / 2 < n.
  Proof.
    intros n H. split.
    - apply Nat.div_le_lower_bound; lia.
    - apply Nat.div_lt; lia.
  Qed.

  Lemma msort_sort : strict_weak_order pred -> forall fuel l, length l <= fuel ->
    in_order pred (msort fuel l) /\ forall x, filter (equiv pred x) (msort fuel l) = filter (equiv pred x) l.
  Proof.
    intros SWO. induction fuel as [|fuel IH]; intros l Hl.
    - destruct l; simpl in *; [|lia]. split; auto. constructor.
    - cbn [msort]. destruct (Nat.ltb_spec (length l) 2).
      + split; auto. destruct l as [|a [|b l]]; simpl in *; try lia; repeat constructor.
      + destruct (half_lt (length l) H) as (H1 & H2).
        destruct (IH (firstn (length l / 2) l)) as (A1 & A2); [rewrite firstn_length; lia|].
        destruct (IH (skipn (length l / 2) l)) as (B1 & B2); [rewrite skipn_length; lia|].
        split; [apply merge_in_order; auto|].
        intros x. rewrite merge_stable, A2, B2, <- filter_app, firstn_skipn by auto. reflexivity.
  Qed.

  (** ** The heap algorithm computes it *)
  Definition tail_of (l : list cell) : val := match last_place l with PVar => Nil | PCdr p => Cell p end.

  Lemma link_store : forall h head pre t, link h head (tail_of pre) t = store h head (last_place pre) t.
  Proof. intros h head pre t. unfold link, tail_of. destruct (last_place pre); reflexivity. Qed.

  Lemma merge_loop_ok : forall n a b fuel h lst mid head pre e,
    length a + length b = n -> n < fuel ->
    chain h lst a Nil -> chain h mid b Nil -> chain h head pre e ->
    (pre = [] -> head = Nil) ->
    NoDup (addrs pre ++ addrs a ++ addrs b) -> (a = [] -> b = [] -> e = Nil) ->
    exists h' v', merge_loop pred fuel h lst mid head (tail_of pre) = Some (h', v') /\
      chain h' v' (pre ++ merge a b) Nil /\ only_cdrs_of (addrs pre ++ addrs a ++ addrs b) h h'.
  Proof.
    induction n as [n IH] using lt_wf_ind. intros a b fuel h lst mid head pre e En Hf Ca Cb Cp Hh ND He.
    destruct fuel as [|fuel]; [lia|]. cbn [merge_loop].
    pose proof ND as ND0. apply nodup_app in ND. destruct ND as (N1 & N2 & N3). apply nodup_app in N2.
    destruct N2 as (N2 & N4 & N5).
    assert (Last : forall l v, chain h v l Nil -> (forall p, In p (addrs l) -> ~ In p (addrs pre)) ->
      forall h' v', link h head (tail_of pre) v = (h', v') ->
      chain h' v' (pre ++ l) Nil /\ only_cdrs_of (addrs pre) h h').
    { intros l v Cl D h' v' E. rewrite link_store in E. destruct (store_end _ _ _ _ _ _ _ Cp N1 E) as (C2 & O).
      split; auto. apply chain_app. exists v. split; auto. eapply chain_frame; [|exact Cl].
      intros p Hp. apply O. apply D. auto. }
    assert (W : forall h', only_cdrs_of (addrs pre) h h' -> only_cdrs_of (addrs pre ++ addrs a ++ addrs b) h h').
    { intros h'. apply only_weaken. intros p Hp. apply in_app_iff. auto. }
    destruct a as [|[p x] a], b as [|[q y] b].
    - simpl in Ca, Cb. subst lst mid. rewrite (He eq_refl eq_refl) in Cp. exists h, head.
      split; [reflexivity|]. simpl. rewrite app_nil_r. split; [exact Cp|apply only_refl].
    - simpl in Ca. subst lst. simpl in Cb. pose proof Cb as Cb0. destruct Cb as (-> & _).
      destruct (link h head (tail_of pre) (Cell q)) as [h' v'] eqn:E. exists h', v'. split; [reflexivity|].
      change (merge [] ((q, y) :: b)) with ((q, y) :: b).
      destruct (Last ((q, y) :: b) (Cell q)) with (h' := h') (v' := v') as (L1 & L2); auto.
      intros r Hr I. apply (N3 r I). apply in_app_iff. auto.
    - simpl in Cb. subst mid. simpl in Ca. pose proof Ca as Ca0. destruct Ca as (-> & _).
      destruct (link h head (tail_of pre) (Cell p)) as [h' v'] eqn:E. exists h', v'. split; [reflexivity|].
      rewrite merge_nil_r.
      destruct (Last ((p, x) :: a) (Cell p)) with (h' := h') (v' := v') as (L1 & L2); auto.
      intros r Hr I. apply (N3 r I). apply in_app_iff. auto.
    - pose proof Ca as Ca0. pose proof Cb as Cb0. simpl in Ca, Cb.
      destruct Ca as (-> & Hx & Ca). destruct Cb as (-> & Hy & Cb). cbn [car cdr]. rewrite Hx, Hy. rewrite merge_eq. cbn [snd].
      destruct (pred y x) eqn:P.
      + cbv zeta. destruct (link h head (tail_of pre) (Cell q)) as [h1 head1] eqn:E. rewrite link_store in E.
        destruct (store_end _ _ _ _ _ _ _ Cp N1 E) as (C2 & O). pose proof O as (O1 & O2 & O3).
        assert (Dq : ~ In q (addrs pre)) by (intros I; apply (N3 q I); apply in_app_iff; right; simpl; auto).
        assert (C3 : chain h1 head1 (pre ++ [(q, y)]) (snd (mem h1 q))).
        { apply chain_app. exists (Cell q). split; auto. simpl. rewrite O3. auto. }
        destruct (IH (length ((p, x) :: a) + length b)) with (a := (p, x) :: a) (b := b) (fuel := fuel) (h := h1) (lst := Cell p)
          (mid := snd (mem h q)) (head := head1) (pre := pre ++ [(q, y)]) (e := snd (mem h1 q)) as (h' & v' & R & C' & O'); auto.
        * simpl in *. lia.
        * simpl in *. lia.
        * eapply chain_frame; [|exact Ca0]. intros r Hr. apply O2. intros I. apply (N3 r I). apply in_app_iff. auto.
        * eapply chain_frame; [|exact Cb]. intros r Hr. apply O2. intros I. apply (N3 r I). apply in_app_iff. right. simpl. auto.
        * intros X. destruct pre; discriminate.
        * rewrite addrs_app. simpl. rewrite <- app_assoc. simpl.
          eapply Permutation_NoDup; [|exact ND0]. apply Permutation_app_head. simpl.
          change (Permutation ((p :: addrs a) ++ q :: addrs b) (q :: (p :: addrs a) ++ addrs b)).
          symmetry. apply Permutation_middle.
        * discriminate.
        * assert (Et : tail_of (pre ++ [(q, y)]) = Cell q) by (unfold tail_of; rewrite last_place_snoc; reflexivity).
          rewrite Et in R. exists h', v'. split; [exact R|]. rewrite <- app_assoc in C'. split; [exact C'|].
          eapply only_trans; [apply W; exact O|]. eapply only_weaken; [|exact O'].
          intros r. rewrite !addrs_app, !in_app_iff. simpl. tauto.
      + cbv zeta. destruct (link h head (tail_of pre) (Cell p)) as [h1 head1] eqn:E. rewrite link_store in E.
        destruct (store_end _ _ _ _ _ _ _ Cp N1 E) as (C2 & O). pose proof O as (O1 & O2 & O3).
        assert (C3 : chain h1 head1 (pre ++ [(p, x)]) (snd (mem h1 p))).
        { apply chain_app. exists (Cell p). split; auto. simpl. rewrite O3. auto. }
        destruct (IH (length a + length ((q, y) :: b))) with (a := a) (b := (q, y) :: b) (fuel := fuel) (h := h1) (lst := snd (mem h p))
          (mid := Cell q) (head := head1) (pre := pre ++ [(p, x)]) (e := snd (mem h1 p)) as (h' & v' & R & C' & O'); auto.
        * simpl in *. lia.
        * simpl in *. lia.
        * eapply chain_frame; [|exact Ca]. intros r Hr. apply O2. intros I. apply (N3 r I). apply in_app_iff. left. simpl. auto.
        * eapply chain_frame; [|exact Cb0]. intros r Hr. apply O2. intros I. apply (N3 r I). apply in_app_iff. auto.
        * intros X. destruct pre; discriminate.
        * rewrite addrs_app. simpl. rewrite <- app_assoc. exact ND0.
        * discriminate.
        * assert (Et : tail_of (pre ++ [(p, x)]) = Cell p) by (unfold tail_of; rewrite last_place_snoc; reflexivity).
          rewrite Et in R. exists h', v'. split; [exact R|]. rewrite <- app_assoc in C'. split; [exact C'|].
          eapply only_trans; [apply W; exact O|]. eapply only_weaken; [|exact O'].
          intros r. rewrite !addrs_app, !in_app_iff. simpl. tauto.
  Qed.

  Lemma firstn_skipn_snoc : forall (l : list cell) k, 1 <= k <= length l ->
    exists l1 m y, firstn k l = l1 ++ [(m, y)] /\ l = l1 ++ (m, y) :: skipn k l /\ length l1 = k - 1.
  Proof.
    intros l k H. destruct (snoc_cases (firstn k l)) as [E|(l1 & [m y] & E)].
    - apply (f_equal (@length _)) in E. rewrite firstn_length in E. simpl in E. lia.
    - exists l1, m, y. split; [exact E|]. split.
      + rewrite <- (firstn_skipn k l) at 1. rewrite E, <- app_assoc. reflexivity.
      + apply (f_equal (@length _)) in E. rewrite firstn_length, app_length in E. simpl in E. lia.
  Qed.

  Lemma perm_addrs : forall l l' : list cell, Permutation l l' -> Permutation (addrs l) (addrs l').
  Proof. intros. apply Permutation_map. auto. Qed.

  Lemma sort_ok : forall fuel l h v, length l < fuel -> chain h v l Nil -> 
    exists h' v', sort pred fuel h v = Some (h', v') /\ chain h' v' (msort fuel l) Nil /\
      only_cdrs_of (addrs l) h h'.
  Proof.
    induction fuel as [|fuel IH]; intros l h v Hf C; [lia|].
    assert (NN : not_cell Nil) by (intros p; discriminate).
    pose proof (chain_nodup _ _ _ _ NN C) as ND.
    cbn [sort msort]. rewrite (length_loop_ok l (S fuel) h v Nil 0 C NN Hf). rewrite Z.add_0_l.
    assert (EB : (Z.of_nat (length l) <? 2)%Z = (length l <? 2)).
    { destruct (Z.ltb_spec (Z.of_nat (length l)) 2), (Nat.ltb_spec (length l) 2); auto; lia. }
    rewrite EB. destruct (Nat.ltb_spec (length l) 2) as [L|L].
    - exists h, v. split; [reflexivity|]. split; [exact C|apply only_refl].
    - set (k := length l / 2) in *. destruct (half_lt (length l) L) as (K1 & K2). fold k in K1, K2.
      assert (Ek : Z.to_nat (Z.quot (Z.of_nat (length l)) 2 - 1) = k - 1).
      { rewrite Z.quot_div_nonneg by lia. change 2%Z with (Z.of_nat 2). rewrite <- Nat2Z.inj_div. fold k. lia. }
      rewrite Ek.
      destruct (firstn_skipn_snoc l k) as (l1 & m & y & E1 & E2 & E3); [lia|].
      pose proof (nthcdr_loop_ok l h v Nil (k - 1) C NN) as CN.
      assert (SK : skipn (k - 1) l = (m, y) :: skipn k l).
      { rewrite E2 at 1. rewrite <- E3. rewrite skipn_app, Nat.sub_diag, skipn_all. reflexivity. }
      rewrite SK in CN. simpl in CN. destruct CN as (-> & Hy & CN).
      assert (C0 : chain h v (l1 ++ (m, y) :: skipn k l) Nil) by (rewrite <- E2; exact C).
      rewrite E2, addrs_app in ND. apply nodup_app in ND. destruct ND as (D1 & D2 & D3). simpl in D2.
      inversion D2 as [|? ? Dm D2']; subst. 
      set (h1 := set_cdr h m Nil).
      assert (C1 : chain h1 v (firstn k l) Nil).
      { rewrite E1. apply chain_app in C0. destruct C0 as (w & Cw & C0). simpl in C0. destruct C0 as (-> & _ & _).
        apply chain_app. exists (Cell m). split.
        - eapply chain_frame; [|exact Cw]. intros p Hp. unfold h1. rewrite set_cdr_mem.
          destruct (Nat.eqb_spec p m); auto. subst. exfalso. apply (D3 m Hp). simpl. auto.
        - simpl. rewrite Nat.eqb_refl. auto. }
      assert (C2 : chain h1 (snd (mem h m)) (skipn k l) Nil).
      { eapply chain_frame; [|exact CN]. intros p Hp. unfold h1. rewrite set_cdr_mem.
        destruct (Nat.eqb_spec p m); auto. subst. contradiction. }
      assert (Disj : forall p, In p (addrs (firstn k l)) -> ~ In p (addrs (skipn k l))).
      { intros p. rewrite E1, addrs_app, in_app_iff. simpl. intros [Hp|[<-|[]]] I; [|contradiction].
        apply (D3 p Hp). simpl. auto. }
      destruct (IH (firstn k l) h1 v) as (h2 & v2 & R2 & S2 & O2); auto; [rewrite firstn_length; lia|].
      rewrite R2.
      destruct (IH (skipn k l) h2 (snd (mem h m))) as (h3 & v3 & R3 & S3 & O3).
      { rewrite skipn_length. lia. }
      { eapply chain_frame; [|exact C2]. intros p Hp. apply O2. intros I. exact (Disj p I Hp). }
      rewrite R3.
      set (A := msort fuel (firstn k l)) in *. set (B := msort fuel (skipn k l)) in *.
      assert (PA : Permutation (firstn k l) A) by apply msort_perm.
      assert (PB : Permutation (skipn k l) B) by apply msort_perm.
      destruct (merge_loop_ok (length A + length B) A B (S fuel) h3 v2 v3 Nil [] Nil) as (h' & v' & R & C' & O'); auto.
      + rewrite <- (Permutation_length PA), <- (Permutation_length PB), firstn_length, skipn_length. lia.
      + eapply chain_frame; [|exact S2]. intros p Hp. apply O3. intros I.
        apply (Disj p); auto. eapply Permutation_in; [symmetry; apply perm_addrs; exact PA|exact Hp].
      + reflexivity.
      + simpl. eapply Permutation_NoDup.
        * apply Permutation_app; apply perm_addrs; [exact PA|exact PB].
        * rewrite <- addrs_app, firstn_skipn. rewrite E2, addrs_app. simpl. apply nodup_app. repeat split; auto.
      + exists h', v'. split; [exact R|]. split; [exact C'|].
        assert (X : forall p, In p (addrs (firstn k l)) \/ In p (addrs (skipn k l)) -> In p (addrs l)).
        { intros p Hp. rewrite <- (firstn_skipn k l), addrs_app. apply in_app_iff. exact Hp. }
        eapply only_trans with (h2 := h1).
        { split; [reflexivity|]. split; intros p; [|unfold h1; apply set_cdr_fst].
          intros Hp. unfold h1. rewrite set_cdr_mem. destruct (Nat.eqb_spec p m); auto. subst. exfalso. apply Hp.
          apply X. left. rewrite E1, addrs_app. apply in_app_iff. simpl. auto. }
        eapply only_trans; [eapply only_weaken; [|exact O2]; intros p Hp; apply X; auto|].
        eapply only_trans; [eapply only_weaken; [|exact O3]; intros p Hp; apply X; auto|].
        eapply only_weaken; [|exact O']. simpl. intros p Hp. apply X. apply in_app_iff in Hp. destruct Hp as [Hp|Hp].
        * left. eapply Permutation_in; [symmetry; apply perm_addrs; exact PA|exact Hp].
        * right. eapply Permutation_in; [symmetry; apply perm_addrs; exact PB|exact Hp].
  Qed.
End Proofs.
