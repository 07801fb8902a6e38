From Coq Require Import ZArith List Bool Lia ZifyBool.
From Verif Require Import Ring_Model Ring_Spec.
Import ListNotations.
Open Scope Z_scope.

Section Proofs.
  Context {V : Type}.
  Variable nil_ : V.
  Implicit Type r : ring (V := V).

  Lemma update_ok : forall (l : list V) i v, (i < length l)%nat ->
    exists l', update l i v = Some l' /\ length l' = length l /\
      nth_error l' i = Some v /\ forall j, j <> i -> nth_error l' j = nth_error l j.
  Proof.
    induction l as [|a l IH]; intros i v H; [simpl in H; lia|].
    destruct i as [|i].
    - exists (v :: l). repeat split; auto. intros [|j] Hj; [congruence|reflexivity].
    - destruct (IH i v) as (l' & E & L & N & O); [simpl in H; lia|].
      exists (a :: l'). simpl. rewrite E. repeat split; simpl; auto. intros [|j] Hj; auto. simpl. apply O. congruence.
  Qed.

  (** The slot at depth [i] holds the [i]-th newest item, or nil. *)
  Definition holds (n : nat) r (l : list V) : Prop :=
    length (items r) = n /\ 0 <= r_pos r < Z.of_nat n /\ r_size r = Z.of_nat (length l) /\ (length l <= n)%nat /\
    forall i, 0 <= i < Z.of_nat n ->
      nth_error (items r) (Z.to_nat ((r_pos r - (i + 1)) mod Z.of_nat n)) = Some (nth (Z.to_nat i) l nil_).

  Lemma holds_make : forall n, (0 < n)%nat -> holds n (make_ring nil_ (Some n)) [].
  Proof.
    intros n Hn. unfold make_ring, holds. cbn [items r_pos r_size length]. rewrite repeat_length.
    repeat split; try lia. intros i Hi.
    assert (E : nth (Z.to_nat i) [] nil_ = nil_) by (destruct (Z.to_nat i); reflexivity). rewrite E.
    apply nth_error_repeat. pose proof (Z.mod_pos_bound (0 - (i + 1)) (Z.of_nat n)). lia.
  Qed.

  Lemma mod_shift : forall a b n, 0 < n -> (a mod n + b) mod n = (a + b) mod n.
  Proof. intros. rewrite Z.add_mod_idemp_l by lia. reflexivity. Qed.

  Lemma mod_sub_inj : forall p i n, 0 <= p < n -> 0 < i < n -> (p - i) mod n <> p.
  Proof.
    intros p i n Hp Hi E. rewrite <- (Z.mod_small p n Hp) in E at 2.
    assert (X : (p - (p - i)) mod n = 0).
    { rewrite Zminus_mod, E, <- Zminus_mod, Z.sub_diag. reflexivity. }
    replace (p - (p - i)) with i in X by lia. rewrite Z.mod_small in X; lia.
  Qed.

  Lemma nth_firstn : forall (l : list V) k i d, (i < k)%nat -> nth i (firstn k l) d = nth i l d.
  Proof.
    induction l as [|a l IH]; intros k i d H.
    - rewrite firstn_nil. reflexivity.
    - destruct k as [|k]; [lia|]. simpl. destruct i as [|i]; [reflexivity|]. apply IH. lia.
  Qed.

  Lemma append_ok : forall n r l v, holds n r l ->
    exists r', ring_append r v = Some r' /\ holds n r' (firstn n (v :: l)).
  Proof.
    intros n r l v (L & P & Sz & Ll & H). unfold ring_append, set_item.
    destruct (r_pos r <? 0) eqn:E0; [lia|].
    destruct (update_ok (items r) (Z.to_nat (r_pos r)) v) as (it & E & L' & N & O); [lia|].
    rewrite E. cbn [option_map]. unfold ring_capacity. cbn [items r_pos r_size]. rewrite L', L.
    destruct (Z.of_nat n =? 0) eqn:E1; [lia|].
    eexists. split; [reflexivity|]. unfold holds. cbn [items r_pos r_size].
    split; [lia|]. split; [apply Z.mod_pos_bound; lia|]. split; [|split].
    - rewrite firstn_length. cbn [length]. rewrite Sz.
      destruct (Z.of_nat (length l) =? Z.of_nat n) eqn:E2; lia.
    - rewrite firstn_length. lia.
    - intros i Hi.
      replace ((r_pos r + 1) mod Z.of_nat n - (i + 1)) with ((r_pos r + 1) mod Z.of_nat n + - (i + 1)) by lia.
      rewrite mod_shift by lia. replace (r_pos r + 1 + - (i + 1)) with (r_pos r - i) by lia.
      rewrite nth_firstn by lia.
      destruct (Z.eq_dec i 0) as [->|Ni].
      + rewrite Z.sub_0_r, Z.mod_small by lia. exact N.
      + rewrite O.
        * specialize (H (i - 1)). replace (i - 1 + 1) with i in H by lia. rewrite H by lia.
          destruct (Z.to_nat i) as [|k] eqn:Ek; [lia|]. simpl. f_equal. f_equal. lia.
        * intros X. apply (mod_sub_inj (r_pos r) i (Z.of_nat n)); try lia.
          pose proof (Z.mod_pos_bound (r_pos r - i) (Z.of_nat n)). lia.
  Qed.

  Lemma replace_ok : forall n r l v, holds n r l ->
    exists r', ring_replace r v = Some r' /\
      holds n r' (match l with [] => [v] | _ :: l' => v :: l' end).
  Proof.
    intros n r l v HH. unfold ring_replace. destruct l as [|a l].
    - destruct (append_ok n r [] v HH) as (r' & E & H'). destruct HH as (L & P & Sz & Ll & H).
      rewrite Sz. cbn. exists r'. split; auto.
      assert (X : firstn n [v] = [v]) by (destruct n; [lia|simpl; rewrite firstn_nil; reflexivity]).
      rewrite X in H'. exact H'.
    - destruct HH as (L & P & Sz & Ll & H). cbn [length] in *. rewrite Sz.
      destruct (Z.of_nat (S (length l)) =? 0) eqn:E0; [lia|].
      unfold ring_capacity. rewrite L. destruct (Z.of_nat n =? 0) eqn:E1; [lia|].
      unfold set_item. pose proof (Z.mod_pos_bound (r_pos r - 1) (Z.of_nat n)) as B.
      destruct ((r_pos r - 1) mod Z.of_nat n <? 0) eqn:E2; [lia|].
      destruct (update_ok (items r) (Z.to_nat ((r_pos r - 1) mod Z.of_nat n)) v) as (it & E & L' & N & O); [lia|].
      rewrite E. cbn [option_map]. eexists. split; [reflexivity|]. unfold holds. cbn [items r_pos r_size length].
      split; [lia|]. split; [lia|]. split; [lia|]. split; [lia|]. intros i Hi.
      destruct (Z.eq_dec i 0) as [->|Ni].
      + exact N.
      + rewrite O.
        * rewrite H by lia. destruct (Z.to_nat i) as [|k] eqn:Ek; [lia|]. reflexivity.
        * intros X. assert (Y : (r_pos r - (i + 1)) mod Z.of_nat n = (r_pos r - 1) mod Z.of_nat n).
          { pose proof (Z.mod_pos_bound (r_pos r - (i + 1)) (Z.of_nat n)). lia. }
          assert (Zr : ((r_pos r - 1) - (r_pos r - (i + 1))) mod Z.of_nat n = 0).
          { rewrite Zminus_mod, Y, <- Zminus_mod, Z.sub_diag. reflexivity. }
          replace ((r_pos r - 1) - (r_pos r - (i + 1))) with i in Zr by lia. rewrite Z.mod_small in Zr; lia.
  Qed.

  Lemma ref_ok : forall n r l d, holds n r l -> 0 <= d -> ring_ref nil_ r d = Some (nth (Z.to_nat d) l nil_).
  Proof.
    intros n r l d (L & P & Sz & Ll & H) Hd. unfold ring_ref, ring_capacity. rewrite L.
    destruct (Z.of_nat n <=? d) eqn:E.
    - rewrite nth_overflow by lia. reflexivity.
    - destruct (Z.of_nat n =? 0) eqn:E1; [lia|]. unfold get_item.
      pose proof (Z.mod_pos_bound (r_pos r - (d + 1)) (Z.of_nat n)) as B.
      destruct ((r_pos r - (d + 1)) mod Z.of_nat n <? 0) eqn:E2; [lia|]. apply H. lia.
  Qed.

  Lemma list_loop_ok : forall k n r l i acc, holds n r l ->
    ring_list_loop nil_ r (Z.of_nat i) k acc =
    Some (rev acc ++ map (fun j => nth j l nil_) (seq i k)).
  Proof.
    induction k as [|k IH]; intros n r l i acc H; cbn [ring_list_loop].
    - simpl. rewrite app_nil_r. reflexivity.
    - rewrite (ref_ok n r l) by (auto; lia). replace (Z.of_nat i + 1) with (Z.of_nat (S i)) by lia.
      rewrite (IH n r l _ _ H). simpl. rewrite <- app_assoc. simpl. rewrite Nat2Z.id. reflexivity.
  Qed.

  Lemma map_nth_seq : forall (l : list V) d, map (fun j => nth j l d) (seq 0 (length l)) = l.
  Proof.
    induction l as [|a l IH]; intros d; simpl; auto. f_equal. rewrite <- seq_shift, map_map. apply IH.
  Qed.

  Lemma list_ok : forall n r l, holds n r l -> ring_list nil_ r = Some l.
  Proof.
    intros n r l H. unfold ring_list. change 0 with (Z.of_nat 0). rewrite (list_loop_ok _ n r l 0%nat [] H).
    destruct H as (_ & _ & Sz & _). rewrite Sz, Nat2Z.id. simpl. rewrite map_nth_seq. reflexivity.
  Qed.

  Lemma run_ok : forall os n r l, holds n r l ->
    exists r', fold_left apply_ring os (Some r) = Some r' /\ holds n r' (fold_left (apply_op n) os l).
  Proof.
    induction os as [|o os IH]; intros n r l H; simpl.
    - exists r. auto.
    - destruct o as [v|v]; simpl.
      + destruct (append_ok n r l v H) as (r' & -> & H'). apply (IH n r' _ H').
      + destruct (replace_ok n r l v H) as (r' & -> & H'). apply (IH n r' _ H').
  Qed.
End Proofs.
