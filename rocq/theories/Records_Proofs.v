From Coq Require Import List Arith Bool Lia.
Import ListNotations.
From Verif Require Import Records_Model Records_Spec.

Lemma upd_length {A} (l : list A) k x : length (upd l k x) = length l.
Proof. revert k; induction l; intros [|k]; cbn; congruence. Qed.

Lemma upd_same {A} (l : list A) k x : k < length l -> nth_error (upd l k x) k = Some x.
Proof. revert k; induction l; intros [|k] H; cbn in *; try lia; auto. apply IHl; lia. Qed.

Lemma upd_other {A} (l : list A) k j x : k <> j -> nth_error (upd l k x) j = nth_error l j.
Proof. revert k j; induction l; intros [|k] [|j] H; cbn; auto; try congruence. Qed.

Lemma nth_lt {A} (l : list A) n x : nth_error l n = Some x -> n < length l.
Proof. intro H. apply nth_error_Some. congruence. Qed.

Lemma nth_snoc_old {A} (l : list A) n x y : nth_error l n = Some x -> nth_error (l ++ [y]) n = Some x.
Proof. intro H. rewrite nth_error_app1; auto. eapply nth_lt; eauto. Qed.

Lemma nth_snoc_new {A} (l : list A) y : nth_error (l ++ [y]) (length l) = Some y.
Proof. rewrite nth_error_app2, Nat.sub_diag; auto. Qed.

Lemma nth_snoc_inv {A} (l : list A) n x y :
  nth_error (l ++ [y]) n = Some x -> nth_error l n = Some x \/ n = length l /\ x = y.
Proof.
  intro H. destruct (Nat.lt_ge_cases n (length l)).
  - rewrite nth_error_app1 in H; auto.
  - assert (L : n < length (l ++ [y])) by (eapply nth_lt; eauto).
    rewrite app_length in L; cbn in L. assert (n = length l) by lia. subst.
    rewrite nth_snoc_new in H. right; split; congruence.
Qed.

Lemma sput_upd w n o : n < length w -> sput w n o = upd w n o.
Proof.
  unfold sput. revert n; induction w; intros [|n] H; cbn in *; try lia; auto.
  f_equal. apply IHw. lia.
Qed.

Lemma veq_eq a b : veq a b = true <-> a = b.
Proof.
  destruct a, b; cbn; split; intro H; try congruence; try discriminate; try reflexivity;
    try (apply Nat.eqb_eq in H; congruence); injection H as H; subst; apply Nat.eqb_refl.
Qed.

Lemma seqb_eq a b : seqb a b = true <-> a = b.
Proof.
  destruct a, b; cbn; split; intro H; try congruence; try discriminate; try reflexivity;
    try (apply Nat.eqb_eq in H; congruence); injection H as H; subst; apply Nat.eqb_refl.
Qed.

(* The relation *)
Definition vrel (m : list nat) (v : value) (s : sval) : Prop :=
  match v, s with
  | Nil, SNil => True
  | Sym x, SSym y => x = y
  | Ref a, SObj n => nth_error m n = Some a
  | _, _ => False
  end.

Fixpoint index (i : nat) (fs : list sym) (f : sym) : option nat :=
  match fs with
  | [] => None
  | x :: r => if Nat.eqb x f then Some i else index (S i) r f
  end.

Definition holds (m : list nat) (fs : list sym) (l : list value) (c : list (sym * sval)) : Prop :=
  length l = length fs /\
  forall f i, index 0 fs f = Some i -> exists v, nth_error l i = Some v /\ vrel m v (contents_of c f).

Definition orel (h : list obj) (m : list nat) (w : sstate) (a : nat) (o : sobj) : Prop :=
  match o with
  | STy fs => exists name, nth_error h a = Some (RType name fs)
  | SRec ty c =>
      a > 0 /\
      exists at_ name fs l,
        nth_error m ty = Some at_ /\ nth_error w ty = Some (STy fs) /\ nth_error h at_ = Some (RType name fs) /\
        nth_error h a = Some (Datum (Ref at_) (Ref (a - 1))) /\ nth_error h (a - 1) = Some (Vec l) /\
        holds m fs l c
  | SDat id s => exists x, nth_error h a = Some (Datum (Sym id) x) /\ vrel m x s
  end.

Definition width (o : sobj) : nat := match o with SRec _ _ => 1 | _ => 0 end.

Record srel (st : state) (m : list nat) (w : sstate) : Prop := {
  s_len : length m = length w;
  s_obj : forall n a o, nth_error m n = Some a -> nth_error w n = Some o -> orel (heap st) m w a o;
  s_inc : forall n n' a a' o, n < n' -> nth_error m n = Some a -> nth_error m n' = Some a' ->
            nth_error w n' = Some o -> a + width o < a'
}.

Lemma orel_lt h m w a o : orel h m w a o -> a < length h.
Proof.
  destruct o; cbn.
  - intros [name H]. eapply nth_lt; eauto.
  - intros (_ & at_ & name & fs & l & _ & _ & _ & H & _). eapply nth_lt; eauto.
  - intros [x [H _]]. eapply nth_lt; eauto.
Qed.

Lemma vrel_more m k v s : vrel m v s -> vrel (m ++ [k]) v s.
Proof. destruct v, s; cbn; auto. apply nth_snoc_old. Qed.

Lemma holds_more m k fs l c : holds m fs l c -> holds (m ++ [k]) fs l c.
Proof.
  intros [L H]. split; auto. intros f i E. destruct (H f i E) as [v [A B]].
  exists v; split; auto. apply vrel_more; auto.
Qed.

Lemma orel_more h h' m k w o' a o :
  (forall j x, nth_error h j = Some x -> nth_error h' j = Some x) ->
  orel h m w a o -> orel h' (m ++ [k]) (w ++ [o']) a o.
Proof.
  intros X. destruct o; cbn.
  - intros [name H]; eauto.
  - intros (P & at_ & name & fs & l & A & B & C & D & E & F). split; auto.
    exists at_, name, fs, l. repeat split; try (apply nth_snoc_old; assumption); auto; try apply F.
    apply (holds_more m k) in F. apply F.
  - intros [x [A B]]. exists x; split; auto. apply vrel_more; auto.
Qed.

Lemma m_ex st m w n o : srel st m w -> nth_error w n = Some o -> exists a, nth_error m n = Some a.
Proof.
  intros R H. destruct (nth_error m n) eqn:E; eauto. apply nth_error_None in E.
  apply nth_lt in H. rewrite (s_len _ _ _ R) in E. lia.
Qed.

Lemma w_ex st m w n a : srel st m w -> nth_error m n = Some a -> exists o, nth_error w n = Some o.
Proof.
  intros R H. destruct (nth_error w n) eqn:E; eauto. apply nth_error_None in E.
  apply nth_lt in H. rewrite <- (s_len _ _ _ R) in E. lia.
Qed.

Lemma m_inj st m w n n' a : srel st m w -> nth_error m n = Some a -> nth_error m n' = Some a -> n = n'.
Proof.
  intros R H H'. destruct (Nat.lt_trichotomy n n') as [L|[L|L]]; auto.
  - destruct (w_ex _ _ _ _ _ R H') as [o O]. pose proof (s_inc _ _ _ R _ _ _ _ _ L H H' O). lia.
  - destruct (w_ex _ _ _ _ _ R H) as [o O]. pose proof (s_inc _ _ _ R _ _ _ _ _ L H' H O). lia.
Qed.

Lemma veq_rel st m w a b x y : srel st m w -> vrel m a x -> vrel m b y -> veq a b = seqb x y.
Proof.
  intros R. destruct a, x; cbn; try contradiction; destruct b, y; cbn; try contradiction; auto; intros; subst; auto.
  destruct (Nat.eqb_spec a a0); subst.
  - symmetry. apply Nat.eqb_eq. eapply m_inj; eauto.
  - symmetry. apply Nat.eqb_neq. intro; subst. congruence.
Qed.

Lemma first_rel st m w v s regs sregs k :
  srel st m w -> vrel m v s -> Forall2 (vrel m) regs sregs -> first_eq v regs k = sfirst s sregs k.
Proof.
  intros R V F. revert k. induction F; intros k; cbn; auto.
  rewrite (veq_rel _ _ _ _ _ _ _ R H V). destruct (seqb y s); auto.
Qed.

Lemma see_rel st m w v s regs sregs :
  srel st m w -> vrel m v s -> Forall2 (vrel m) regs sregs -> see regs v = ssee sregs s.
Proof.
  intros R V F. destruct v, s; cbn in V; try contradiction; subst; auto.
  unfold see, ssee. f_equal. eapply first_rel; eauto.
Qed.

Lemma operand_rel m regs sregs o :
  Forall2 (vrel m) regs sregs -> vrel m (operand_value regs o) (soperand sregs o).
Proof.
  intro F. destruct o; cbn; auto. revert n. induction F; intros [|n]; cbn; auto.
Qed.

Lemma operands_rel m regs sregs l :
  Forall2 (vrel m) regs sregs -> Forall2 (vrel m) (map (operand_value regs) l) (map (soperand sregs) l).
Proof. intro F. induction l; cbn; constructor; auto. apply operand_rel; auto. Qed.

(* A new object at the end of the heap *)
Lemma new_rel st m w h' o a :
  srel st m w ->
  (forall j x, nth_error (heap st) j = Some x -> nth_error h' j = Some x) ->
  length (heap st) + width o <= a ->
  orel h' (m ++ [a]) (w ++ [o]) a o ->
  srel (mk h' (eol st)) (m ++ [a]) (w ++ [o]) /\ vrel (m ++ [a]) (Ref a) (SObj (length w)).
Proof.
  intros R X W O. pose proof (s_len _ _ _ R) as L. split.
  - constructor.
    + rewrite !app_length, L; auto.
    + intros n b x A B. cbn. apply nth_snoc_inv in B. destruct B as [B|[E B]].
      * assert (A' : nth_error m n = Some b).
        { apply nth_lt in B. rewrite nth_error_app1 in A by lia. exact A. }
        apply (orel_more (heap st)); [exact X|]. exact (s_obj _ _ _ R _ _ _ A' B).
      * subst. rewrite <- L in A. rewrite nth_snoc_new in A. injection A as A; subst. auto.
    + intros n n' b b' x N A A' B. apply nth_snoc_inv in B. destruct B as [B|[E B]].
      * pose proof (nth_lt _ _ _ B). rewrite nth_error_app1 in A, A' by lia. exact (s_inc _ _ _ R _ _ _ _ _ N A A' B).
      * subst. rewrite nth_error_app1 in A by lia. rewrite <- L, nth_snoc_new in A'. injection A' as A'; subst.
        destruct (w_ex _ _ _ _ _ R A) as [y Y]. pose proof (orel_lt _ _ _ _ _ (s_obj _ _ _ R _ _ _ A Y)). lia.
  - cbn. rewrite <- L. apply nth_snoc_new.
Qed.

Lemma field_index_index fs i f : field_index_from i fs (Sym f) = index i fs f.
Proof. revert i; induction fs; intros i; cbn; auto. destruct (Nat.eqb a f); auto. Qed.

Lemma index_ge fs i f j : index i fs f = Some j -> i <= j < i + length fs.
Proof.
  revert i; induction fs as [|x r IH]; intros i; cbn; [discriminate|].
  destruct (Nat.eqb x f); intro H.
  - injection H as H; lia.
  - apply IH in H. lia.
Qed.

Lemma index_inj fs i f g j : index i fs f = Some j -> index i fs g = Some j -> f = g.
Proof.
  revert i; induction fs as [|x r IH]; intros i; cbn; [discriminate|].
  destruct (Nat.eqb_spec x f), (Nat.eqb_spec x g); intros A B; try congruence.
  - injection A as A. apply index_ge in B. lia.
  - injection B as B. apply index_ge in A. lia.
  - eauto.
Qed.

Lemma index_member fs i f : member f fs = match index i fs f with Some _ => true | None => false end.
Proof.
  revert i; induction fs as [|x r IH]; intros i; cbn; auto.
  rewrite (Nat.eqb_sym x f). destruct (Nat.eqb f x); cbn; [reflexivity|apply IH].
Qed.

Lemma fetch_type st m w v s :
  srel st m w -> vrel m v s -> type_fields st v = fields_of w s.
Proof.
  intros R V. unfold type_fields, fields_of. destruct v, s; cbn in *; try contradiction; auto.
  destruct (w_ex _ _ _ _ _ R V) as [o O]. rewrite O.
  pose proof (s_obj _ _ _ R _ _ _ V O) as X. destruct o; cbn in X.
  - destruct X as [name X]. rewrite X; auto.
  - destruct X as (_ & at_ & name & fs & l & _ & _ & _ & X & _). rewrite X; auto.
  - destruct X as [x [X _]]. rewrite X; auto.
Qed.

Lemma datum_rel st m w v n :
  srel st m w -> vrel m v (SObj n) ->
  match nth_error w n with
  | Some (STy _) => datum_of st v = None
  | Some (SRec ty _) => exists at_ x, nth_error m ty = Some at_ /\ datum_of st v = Some (Ref at_, x)
  | Some (SDat id s) => exists x, datum_of st v = Some (Sym id, x) /\ vrel m x s
  | None => False
  end.
Proof.
  intros R V. destruct v; cbn in V; try contradiction.
  destruct (w_ex _ _ _ _ _ R V) as [o O]. rewrite O.
  pose proof (s_obj _ _ _ R _ _ _ V O) as X. destruct o; cbn in X |- *.
  - destruct X as [name X]. rewrite X; auto.
  - destruct X as (_ & at_ & name & fs & l & A & _ & _ & X & _). rewrite X; eauto.
  - destruct X as [x [X Y]]. rewrite X; eauto.
Qed.

(* the record behind a value, for a type *)
Lemma record_rel st m w rt srt r sr ty fs :
  srel st m w -> vrel m rt srt -> vrel m r sr -> srt = SObj ty -> fields_of w srt = Some fs ->
  match record_of w srt sr with
  | None => datum_ref st r rt = None /\ has_type_p st r rt = false
  | Some (n, c) =>
      exists a l, r = Ref a /\ sr = SObj n /\ nth_error m n = Some a /\ nth_error w n = Some (SRec ty c) /\ a > 0 /\
        has_type_p st r rt = true /\
        datum_ref st r rt = Some (Ref (a - 1)) /\ nth_error (heap st) (a - 1) = Some (Vec l) /\ holds m fs l c
  end.
Proof.
  intros R T_ V E F. subst srt. destruct rt as [| | |at_]; cbn in T_; try contradiction.
  unfold record_of, datum_ref, has_type_p.
  destruct sr as [|s|n]; cbn [record_of].
  - destruct r; cbn in V; try contradiction. cbn. auto.
  - destruct r; cbn in V; try contradiction. cbn. auto.
  - pose proof (datum_rel _ _ _ _ _ R V) as D. destruct r as [| | |a]; cbn in V; try contradiction.
    destruct (nth_error w n) as [[fs'|ty' c|id x]|] eqn:N; try contradiction.
    + rewrite D; auto.
    + destruct D as (at' & x & A & D). rewrite D. cbn [veq seqb].
      destruct (Nat.eqb_spec ty' ty).
      * subst ty'. rewrite A in T_; injection T_ as T_; subst at'. rewrite Nat.eqb_refl.
        pose proof (s_obj _ _ _ R _ _ _ V N) as X. cbn in X.
        destruct X as (P & at' & name & fs' & l & A' & B & C & X & Y & H).
        unfold fields_of in F; cbn [sget] in F. rewrite B in F. injection F as F; subst fs'.
        cbn in D. rewrite X in D. injection D as D1 D2; subst.
        exists a, l. repeat split; auto; apply H.
      * assert (Nat.eqb at' at_ = false) as ->; [|auto].
        apply Nat.eqb_neq. intro; subst. apply n0. eapply m_inj; eauto.
    + destruct D as (x' & D & _). rewrite D. cbn; auto.
Qed.

Lemma holds_set m fs l c f i v s :
  holds m fs l c -> index 0 fs f = Some i -> vrel m v s -> holds m fs (upd l i v) ((f, s) :: c).
Proof.
  intros [L H] I V. split; [rewrite upd_length; auto|].
  pose proof (index_ge _ _ _ _ I) as G. intros g j J. unfold contents_of; cbn.
  destruct (Nat.eqb_spec f g).
  - subst. rewrite I in J. injection J as J; subst. exists v; split; auto. apply upd_same. lia.
  - assert (i <> j) by (intro; subst; apply n; eapply index_inj; eauto).
    destruct (H g j J) as [x [A B]]. exists x. rewrite upd_other by auto. auto.
Qed.

(* changing the vector of one record, or the value of one datum *)
Lemma upd_rel st m w n a o' k x :
  srel st m w -> nth_error m n = Some a -> k <= a -> a <= k + match nth_error w n with Some o => width o | None => 0 end ->
  width o' = match nth_error w n with Some o => width o | None => 0 end ->
  (forall fs, nth_error w n <> Some (STy fs)) ->
  (forall at_ name fs, nth_error (heap st) at_ = Some (RType name fs) -> k <> at_) ->
  orel (upd (heap st) k x) m (upd w n o') a o' ->
  srel (mk (upd (heap st) k x) (eol st)) m (upd w n o').
Proof.
  intros R A K1 K2 W NT KT O. destruct (w_ex _ _ _ _ _ R A) as [o N]. rewrite N in *.
  constructor.
  - rewrite upd_length. apply R.
  - intros j b y B Y. cbn. destruct (Nat.eq_dec n j).
    + subst j. rewrite upd_same in Y by (eapply nth_lt; eauto). injection Y as Y; subst y.
      rewrite A in B; injection B as B; subst b. auto.
    + rewrite upd_other in Y by auto. pose proof (s_obj _ _ _ R _ _ _ B Y) as Z.
      assert (D : k <> b /\ k + width y <> b /\ (width y = 1 -> k <> b - 1)).
      { destruct (Nat.lt_trichotomy n j) as [Q|[Q|Q]]; [|congruence|].
        - pose proof (s_inc _ _ _ R _ _ _ _ _ Q A B Y). lia.
        - pose proof (s_inc _ _ _ R _ _ _ _ _ Q B A N). lia. }
      destruct y; cbn in Z |- *.
      * destruct Z as [name Z]. exists name. rewrite upd_other by lia. auto.
      * destruct Z as (P & at_ & name & fs & l & Z1 & Z2 & Z3 & Z4 & Z5 & Z6). split; auto.
        cbn in D. exists at_, name, fs, l.
        assert (Q1 : nth_error (upd w n o') ty = Some (STy fs)).
        { rewrite upd_other; auto. intro; subst ty. rewrite N in Z2. eapply NT; eauto. }
        assert (Q2 : nth_error (upd (heap st) k x) at_ = Some (RType name fs)).
        { rewrite upd_other; auto. eapply KT; eauto. }
        rewrite Q1, Q2. rewrite !(upd_other (heap st)) by lia.
        repeat split; auto; apply Z6.
      * destruct Z as [z [Z1 Z2]]. exists z. rewrite upd_other by lia. auto.
  - intros j j' b b' y L B B' Y. destruct (Nat.eq_dec n j').
    + subst j'. rewrite upd_same in Y by (eapply nth_lt; eauto). injection Y as Y; subst y.
      rewrite W. exact (s_inc _ _ _ R _ _ _ _ _ L B B' N).
    + rewrite upd_other in Y by auto. exact (s_inc _ _ _ R _ _ _ _ _ L B B' Y).
Qed.

(* the constructor's loop *)
Fixpoint fillv (l : list value) (ids : list nat) (args : list value) : list value :=
  match args, ids with
  | x :: args, i :: ids => fillv (upd l i x) ids args
  | _, _ => l
  end.

Lemma upd_twice {A} (l : list A) k x y : upd (upd l k x) k y = upd l k y.
Proof. revert k; induction l; intros [|k]; cbn; auto. f_equal; auto. Qed.

Lemma upd_id {A} (l : list A) k x : nth_error l k = Some x -> upd l k x = l.
Proof. revert k; induction l; intros [|k] H; cbn in *; auto; try congruence. f_equal; auto. Qed.

Lemma fill_vector ids : forall args h e a b rt l,
  nth_error h a = Some (Datum rt (Ref b)) -> nth_error h b = Some (Vec l) ->
  (forall i, In i ids -> i < length l) ->
  fill (mk h e) rt (Ref a) ids args = Some (mk (upd h b (Vec (fillv l ids args))) e).
Proof.
  induction ids as [|i ids IH]; intros args h e a b rt l A B I.
  - destruct args; cbn; rewrite upd_id; auto.
  - destruct args as [|x args]; cbn.
    + rewrite upd_id; auto.
    + unfold field_set, datum_ref. cbn [datum_of fetch heap]. rewrite A.
      assert (veq rt rt = true) as -> by (apply veq_eq; auto).
      unfold aset. cbn [fetch heap]. rewrite B.
      assert (i <? length l = true) as -> by (apply Nat.ltb_lt, I; left; auto).
      assert (N : a <> b) by (intro; subst; congruence).
      cbn [store heap eol]. rewrite IH with (b := b) (l := upd l i x).
      * rewrite upd_twice; auto.
      * rewrite upd_other by auto; auto.
      * rewrite upd_same; auto. eapply nth_lt; eauto.
      * intros j J. rewrite upd_length. apply I; right; auto.
Qed.

Lemma indices_spec st rt fs fields :
  type_fields st rt = Some fs ->
  indices st rt (map Sym fields) =
  if forallb (fun f => member f fs) fields
  then Some (map (fun f => match index 0 fs f with Some i => i | None => 0 end) fields) else None.
Proof.
  intro H. induction fields as [|f r IH]; cbn; auto.
  unfold field_index. rewrite H, field_index_index, (index_member fs 0).
  destruct (index 0 fs f); cbn; auto. rewrite IH.
  destruct (forallb (fun f0 => member f0 fs) r); auto.
Qed.

Lemma indices_none st rt fields : type_fields st rt = None -> fields <> [] -> indices st rt (map Sym fields) = None.
Proof. intros H N. destruct fields; [congruence|]. cbn. unfold field_index. rewrite H. auto. Qed.

Lemma fillv_holds m fs fields : forall l args sargs c,
  holds m fs l c -> Forall2 (vrel m) args sargs -> forallb (fun f => member f fs) fields = true ->
  holds m fs (fillv l (map (fun f => match index 0 fs f with Some i => i | None => 0 end) fields) args)
        (rev (combine fields sargs) ++ c).
Proof.
  induction fields as [|f r IH]; intros l args sargs c H V M.
  - cbn. destruct args; auto.
  - destruct V as [|x s args sargs X V]; cbn [map fillv combine rev app]; auto.
    cbn in M. apply andb_prop in M. destruct M as [M1 M2].
    rewrite <- app_assoc. cbn [app]. apply IH; auto.
    rewrite (index_member fs 0) in M1. destruct (index 0 fs f) eqn:E; [|discriminate].
    apply holds_set; auto.
Qed.

Lemma repeat_nth {A} (x : A) n i : i < n -> nth_error (repeat x n) i = Some x.
Proof. revert i; induction n; intros [|i] H; cbn; try lia; auto. apply IHn; lia. Qed.

Lemma holds_new m fs : holds m fs (repeat Nil (length fs)) [].
Proof.
  split; [apply repeat_length|]. intros f i H. apply index_ge in H.
  exists Nil; split; [apply repeat_nth; lia|cbn; auto].
Qed.

(* the macro's constructor *)
Lemma has_field_params l f : has_field_p l f = member f (params l).
Proof.
  unfold has_field_p, params, member. rewrite existsb_app.
  f_equal.
  - induction (items l) as [|[k|s|s] r IH]; cbn; auto; rewrite IH, (Nat.eqb_sym s f); auto.
  - destruct (tail l); cbn; auto. rewrite orb_false_r. apply Nat.eqb_sym.
Qed.

Lemma vars_params l : lambda_vars l = params l.
Proof.
  unfold lambda_vars, params. f_equal.
  induction (items l) as [|[k|s|s] r IH]; cbn; auto; rewrite IH; auto.
Qed.

Lemma constructor_args_map l names : forall out,
  constructor_args l names out = rev out ++ map (fun f => if has_field_p l f then EVar f else ENil) names.
Proof.
  induction names as [|f r IH]; intros out; cbn.
  - rewrite app_nil_r; auto.
  - rewrite IH. cbn. rewrite <- app_assoc; auto.
Qed.

Fixpoint evlis (e g : env) (st : state) (l : list expr) : option (list value * state) :=
  match l with
  | [] => Some ([], st)
  | x :: r =>
      match eval e g st x with
      | Some (v, st) => match evlis e g st r with Some (vs, st) => Some (v :: vs, st) | None => None end
      | None => None
      end
  end.

Lemma eval_call e g st f args :
  eval e g st (ECall f args) =
  match look e g f with
  | Some fv => match evlis e g st args with Some (vs, st) => call st fv vs | None => None end
  | None => None
  end.
Proof.
  cbn [eval]. destruct (look e g f); auto.
  match goal with |- match ?F st args with _ => _ end = _ => assert (E : forall l st, F st l = evlis e g st l) end.
  { clear. induction l as [|x r IH]; intros st; auto. cbn [evlis].
    destruct (eval e g st x) as [[v' st']|]; auto. rewrite IH. auto. }
  rewrite E. auto.
Qed.

Lemma assoc_rev_none {A} (k : sym) (l : list (sym * A)) : ~ In k (map fst l) -> assoc k (rev l) = None.
Proof.
  intro H. assert (X : ~ In k (map fst (rev l))) by (rewrite map_rev, <- in_rev; auto).
  revert X. generalize (rev l). clear. induction l as [|[x v] r IH]; cbn; auto.
  intro H. destruct (Nat.eqb_spec x k); [subst; tauto|auto].
Qed.

Definition prel (m : list nat) (p : sym * value) (q : sym * sval) : Prop := fst p = fst q /\ vrel m (snd p) (snd q).

Lemma assoc_rel m e se f :
  Forall2 (prel m) e se ->
  match assoc f e with
  | Some v => vrel m v (contents_of se f) /\ In f (map fst e)
  | None => contents_of se f = SNil /\ ~ In f (map fst e)
  end.
Proof.
  intro F. unfold contents_of. induction F as [|[k v] [k' s] e se [K V] F IH]; cbn in *.
  - auto.
  - subst k'. destruct (Nat.eqb_spec k f); cbn; auto.
    destruct (assoc f e); destruct IH; split; auto. intros [X|X]; auto.
Qed.

Lemma combine_rel m names vals svals :
  Forall2 (vrel m) vals svals -> Forall2 (prel m) (combine names vals) (combine names svals).
Proof.
  intro F. revert names. induction F; intros [|n names]; cbn; constructor; auto. split; auto.
Qed.

Lemma rev_rel {A B} (P : A -> B -> Prop) l l' : Forall2 P l l' -> Forall2 P (rev l) (rev l').
Proof. induction 1; cbn; auto. apply Forall2_app; auto. Qed.

Lemma combine_fst {A B} (l : list A) (l' : list B) : length l' = length l -> map fst (combine l l') = l.
Proof. revert l'; induction l; intros [|y l'] H; cbn in *; try discriminate; auto. f_equal; auto. Qed.

Lemma member_in f l : member f l = true <-> In f l.
Proof.
  unfold member. rewrite existsb_exists. split.
  - intros [x [A B]]. apply Nat.eqb_eq in B. subst; auto.
  - intro H. exists f; split; auto. apply Nat.eqb_refl.
Qed.

Lemma evlis_fields m e se g st l names :
  Forall2 (prel m) e se -> (forall f, In f (map fst e) <-> In f (params l)) ->
  exists vs, evlis e g st (map (fun f => if has_field_p l f then EVar f else ENil) names) = Some (vs, st) /\
    Forall2 (fun v f => vrel m v (contents_of se f)) vs names.
Proof.
  intros F P. induction names as [|f r [vs [E V]]]; cbn.
  - exists []; split; auto.
  - pose proof (assoc_rel m e se f F) as A. rewrite has_field_params.
    destruct (member f (params l)) eqn:M.
    + apply member_in in M. apply P in M. cbn. unfold look. destruct (assoc f e) as [v|]; [|tauto].
      rewrite E. exists (v :: vs); split; auto. constructor; auto. apply A.
    + assert (N : ~ In f (params l)) by (rewrite <- member_in; congruence).
      rewrite <- P in N. cbn. rewrite E. exists (Nil :: vs); split; auto. constructor; auto.
      destruct (assoc f e); [tauto|]. destruct A as [-> _]. cbn; auto.
Qed.

Lemma holds_fields m vs c : forall fs,
  Forall2 (fun v f => vrel m v (contents_of c f)) vs fs -> holds m fs vs c.
Proof.
  intros fs F. split; [clear - F; induction F; cbn; auto|].
  assert (G : forall k f i, index k fs f = Some i -> exists v, nth_error vs (i - k) = Some v /\ vrel m v (contents_of c f)).
  { induction F as [|v g vs fs V F IH]; intros k f i H; cbn in H; [discriminate|].
    destruct (Nat.eqb_spec g f).
    - injection H as H; subst. rewrite Nat.sub_diag. cbn. eauto.
    - pose proof (index_ge _ _ _ _ H). destruct (IH _ _ _ H) as [x [A B]].
      exists x; split; auto. replace (i - k) with (S (i - S k)) by lia. auto. }
  intros f i H. destruct (G _ _ _ H) as [v [A B]]. rewrite Nat.sub_0_r in A. eauto.
Qed.

(* the record is new: its vector and then its datum are put at the end *)
Lemma new_record st m w rt ty fs l c e :
  srel st m w -> vrel m rt (SObj ty) -> fields_of w (SObj ty) = Some fs -> holds m fs l c -> e = eol st ->
  let a := S (length (heap st)) in
  srel (mk ((heap st ++ [Vec l]) ++ [Datum rt (Ref (length (heap st)))]) e) (m ++ [a]) (w ++ [SRec ty c]) /\
  vrel (m ++ [a]) (Ref a) (SObj (length w)).
Proof.
  intros R V F H -> a. destruct rt as [| | |at_]; cbn in V; try contradiction.
  assert (X : forall j x, nth_error (heap st) j = Some x ->
    nth_error ((heap st ++ [Vec l]) ++ [Datum (Ref at_) (Ref (length (heap st)))]) j = Some x).
  { intros j x J. apply nth_snoc_old, nth_snoc_old; auto. }
  apply new_rel; auto; [cbn; lia|].
  unfold fields_of in F; cbn [sget] in F. destruct (nth_error w ty) as [[fs'| |]|] eqn:N; try discriminate. injection F as F; subst fs'.
  destruct (s_obj _ _ _ R _ _ _ V N) as [name T_].
  cbn [orel]. split; [lia|]. exists at_, name, fs, l. subst a. rewrite Nat.sub_succ, Nat.sub_0_r.
  repeat split; auto; try (apply nth_snoc_old; assumption).
  - replace (S (length (heap st))) with (length (heap st ++ [Vec l])) by (rewrite app_length; cbn; lia).
    apply nth_snoc_new.
  - apply nth_snoc_old, nth_snoc_new.
  - apply H.
  - apply holds_more; auto.
Qed.

(* types: what is known of the results that are record types *)
Definition trel (st : state) (types : list (option sym)) (regs : list value) : Prop :=
  length types = length regs /\
  forall n name, nth n types None = Some name ->
    name <> VECTOR /\ name <> MAKE_RECORD_DATUM /\
    exists fs, fetch st (nth n regs Nil) = Some (RType name fs).

Definition ostep_rel (st : state) (m : list nat) (regs : list value) (w : sstate) (sregs : list sval)
           (r : option (value * state)) (s : option (sval * sstate)) : Prop :=
  match r, s with
  | None, None => True
  | Some (v, st'), Some (sv, w') =>
      exists m', srel st' m' w' /\ vrel m' v sv /\ Forall2 (vrel m') regs sregs /\
        (forall x y, vrel m x y -> vrel m' x y) /\
        (forall v name fs, fetch st v = Some (RType name fs) -> fetch st' v = Some (RType name fs))
  | _, _ => False
  end.

Lemma regs_more m k regs sregs : Forall2 (vrel m) regs sregs -> Forall2 (vrel (m ++ [k])) regs sregs.
Proof. induction 1; constructor; auto. apply vrel_more; auto. Qed.

Lemma fetch_more st h' e :
  (forall j x, nth_error (heap st) j = Some x -> nth_error h' j = Some x) ->
  forall v name fs, fetch st v = Some (RType name fs) -> fetch (mk h' e) v = Some (RType name fs).
Proof. intros X v name fs. destruct v; cbn; auto. Qed.

Lemma is_rel st m w rt r srt sr ty fs :
  srel st m w -> vrel m rt srt -> vrel m r sr -> srt = SObj ty -> fields_of w srt = Some fs ->
  has_type_p st r rt = match record_of w srt sr with Some _ => true | None => false end.
Proof.
  intros R V W E F. pose proof (record_rel _ _ _ _ _ _ _ _ _ R V W E F) as X.
  destruct (record_of w srt sr) as [[n c]|].
  - destruct X as (a & l & _ & _ & _ & _ & _ & H & _). auto.
  - tauto.
Qed.

Lemma same_rel st m w regs sregs v s :
  srel st m w -> Forall2 (vrel m) regs sregs -> vrel m v s ->
  ostep_rel st m regs w sregs (Some (v, st)) (Some (s, w)).
Proof. intros. exists m. repeat split; auto; apply H. Qed.

Lemma truth_rel m b : vrel m (truth b) (sbool b).
Proof. destruct b; cbn; auto. Qed.

Lemma step_rel st m w regs sregs types o :
  srel st m w -> Forall2 (vrel m) regs sregs -> trel st types regs -> fit types o ->
  ostep_rel st m regs w sregs (step st regs o) (sstep w sregs o).
Proof.
  intros R F TR FIT. pose proof (fun o => operand_rel m regs sregs o F) as V.
  destruct o as [name fields|rt fields args|rt l vals|rt field r|rt field r x|rt r|x id|d id|d id x|d id]; cbn [step sstep].
  - (* NewType *)
    set (X := fun j x (J : nth_error (heap st) j = Some x) => nth_snoc_old (heap st) j x (RType name fields) J).
    destruct (new_rel st m w (heap st ++ [RType name fields]) (STy fields) (length (heap st)) R X) as [A B].
    + cbn; lia.
    + cbn. exists name. apply nth_snoc_new.
    + exists (m ++ [length (heap st)]). split; [exact A|]. split; [exact B|]. split; [apply regs_more; auto|].
      split; [intros; apply vrel_more; auto|]. apply fetch_more; auto.
  - (* Construct *)
    pose proof (fetch_type _ _ _ _ _ R (V rt)) as TF.
    destruct (fields_of w (soperand sregs rt)) as [fs|] eqn:FO.
    + rewrite (indices_spec _ _ _ _ TF).
      specialize (V rt). destruct (soperand sregs rt) as [|s|ty]; try discriminate.
      destruct (forallb (fun f => member f fs) fields) eqn:M; [|exact I].
      unfold construct, make_record. rewrite TF. cbn [alloc make_datum heap eol].
      set (h := (heap st ++ [Vec (repeat Nil (length fs))]) ++ [Datum (operand_value regs rt) (Ref (length (heap st)))]).
      assert (A : length (heap st ++ [Vec (repeat Nil (length fs))]) = S (length (heap st))) by (rewrite app_length; cbn; lia).
      rewrite A.
      set (fl := fillv (repeat Nil (length fs)) (map (fun f => match index 0 fs f with Some i => i | None => 0 end) fields) (map (operand_value regs) args)).
      rewrite (fill_vector _ _ h (eol st) (S (length (heap st))) (length (heap st)) _ (repeat Nil (length fs))).
      * fold fl.
        assert (U : upd h (length (heap st)) (Vec fl) = (heap st ++ [Vec fl]) ++ [Datum (operand_value regs rt) (Ref (length (heap st)))]).
        { subst h. clear. induction (heap st) as [|y r IH] in |- *.
          - reflexivity.
          - generalize (Datum (operand_value regs rt) (Ref (length (y :: r)))). intro D. clear IH.
            generalize (y :: r). intro q. induction q; cbn; auto. f_equal; auto. }
        rewrite U.
        destruct (new_record st m w (operand_value regs rt) ty fs fl (rev (combine fields (map (soperand sregs) args))) (eol st) R V FO) as [B C]; auto.
        { pose proof (fillv_holds m fs fields _ (map (operand_value regs) args) (map (soperand sregs) args) [] (holds_new m fs)) as H.
          rewrite app_nil_r in H. apply H; auto. apply operands_rel; auto. }
        exists (m ++ [S (length (heap st))]). split; [exact B|]. split; [exact C|]. split; [apply regs_more; auto|].
        split; [intros; apply vrel_more; auto|].
        apply fetch_more. intros j x J. apply nth_snoc_old, nth_snoc_old; auto.
      * subst h. rewrite <- A. apply nth_snoc_new.
      * subst h. apply nth_snoc_old, nth_snoc_new.
      * intros i I0. rewrite repeat_length. apply in_map_iff in I0. destruct I0 as [f [E I0]].
        rewrite forallb_forall in M. specialize (M _ I0). rewrite (index_member fs 0) in M.
        destruct (index 0 fs f) eqn:J; [|discriminate]. apply index_ge in J. lia.
    + destruct fields as [|f fields].
      * cbn. unfold construct, make_record. rewrite TF. exact I.
      * rewrite indices_none by (auto; discriminate). exact I.
  - (* MacroConstruct *)
    cbn in FIT. destruct FIT as (LEN & N1 & N2 & N3).
    destruct (type_operand types rt) as [name|] eqn:TO; [|contradiction].
    destruct rt as [| |k]; try discriminate. cbn in TO.
    destruct TR as [_ TR]. destruct (TR _ _ TO) as (Q1 & Q2 & fs & FE).
    specialize (V (OReg k)). cbn [operand_value soperand] in *.
    pose proof (fetch_type _ _ _ _ _ R V) as TF. unfold type_fields in TF. rewrite FE in TF. rewrite <- TF.
    unfold macro_construct. rewrite FE. set (rt := nth k regs Nil) in *.
    destruct (nth k sregs SNil) as [|s|ty]; try discriminate.
    set (e := rev (combine (lambda_vars l) (map (operand_value regs) vals))).
    set (se := rev (combine (params l) (map (soperand sregs) vals))).
    set (g := [(VECTOR, Fn VECTOR); (MAKE_RECORD_DATUM, Fn MAKE_RECORD_DATUM); (name, rt)]).
    assert (EF : map fst (combine (lambda_vars l) (map (operand_value regs) vals)) = params l).
    { rewrite vars_params. apply combine_fst. rewrite map_length; auto. }
    assert (E0 : forall q, ~ In q (params l) -> assoc q e = None).
    { intros q Q. apply assoc_rev_none. rewrite EF; auto. }
    assert (ER : Forall2 (prel m) e se).
    { subst e se. apply rev_rel. rewrite vars_params. apply combine_rel. apply operands_rel; auto. }
    assert (EP : forall f, In f (map fst e) <-> In f (params l)).
    { intro f. subst e. rewrite map_rev, EF. rewrite <- in_rev. reflexivity. }
    unfold constructor_body. rewrite eval_call. unfold look at 1. rewrite E0 by auto.
    replace (assoc MAKE_RECORD_DATUM g) with (Some (Fn MAKE_RECORD_DATUM)) by reflexivity.
    cbn [evlis]. rewrite eval_call. unfold look at 1. rewrite E0 by auto.
    replace (assoc VECTOR g) with (Some (Fn VECTOR)) by reflexivity.
    rewrite constructor_args_map. cbn [rev app].
    destruct (evlis_fields m e se g st l fs ER EP) as [vs [EV HV]]. rewrite EV.
    cbn [call VECTOR Nat.eqb alloc]. cbn [eval]. unfold look. rewrite E0 by auto.
    assert (G : assoc name g = Some rt).
    { subst g. cbn [assoc]. destruct (Nat.eqb_spec VECTOR name); [congruence|].
      destruct (Nat.eqb_spec MAKE_RECORD_DATUM name); [congruence|]. rewrite Nat.eqb_refl; auto. }
    rewrite G. cbn [call MAKE_RECORD_DATUM VECTOR Nat.eqb].
    unfold make_datum, alloc. cbn [heap eol].
    assert (A : length (heap st ++ [Vec vs]) = S (length (heap st))) by (rewrite app_length; cbn; lia).
    rewrite A.
    destruct (new_record st m w rt ty fs vs se (eol st) R V) as [B C]; auto.
    { apply holds_fields; auto. }
    exists (m ++ [S (length (heap st))]). split; [exact B|]. split; [exact C|]. split; [apply regs_more; auto|].
    split; [intros; apply vrel_more; auto|].
    apply fetch_more. intros j x J. apply nth_snoc_old, nth_snoc_old; auto.
  - (* Get *)
    pose proof (fetch_type _ _ _ _ _ R (V rt)) as TF.
    unfold record_accessor, field_index. rewrite TF.
    destruct (fields_of w (soperand sregs rt)) as [fs|] eqn:FO; [|exact I].
    rewrite field_index_index, (index_member fs 0).
    pose proof FO as FO'. pose proof (V rt) as VR.
    destruct (soperand sregs rt) as [|s|ty] eqn:SO; try discriminate.
    pose proof (record_rel _ _ _ _ _ _ _ _ _ R VR (V r) eq_refl FO) as RR.
    unfold call_accessor, field_ref.
    destruct (record_of w (SObj ty) (soperand sregs r)) as [[n c]|] eqn:RO.
    + destruct RR as (a & l & E1 & E2 & E3 & E4 & E5 & E6 & E7 & E8 & [HL HH]).
      destruct (index 0 fs field) as [i|] eqn:IX; [|exact I].
      rewrite E7. unfold aref. cbn. rewrite E8. destruct (HH _ _ IX) as [v [A B]]. rewrite A.
      apply same_rel; auto.
    + destruct RR as [RR _]. rewrite RR. destruct (index 0 fs field); exact I.
  - (* Set_ *)
    pose proof (fetch_type _ _ _ _ _ R (V rt)) as TF.
    unfold record_modifier, field_index. rewrite TF.
    destruct (fields_of w (soperand sregs rt)) as [fs|] eqn:FO; [|exact I].
    rewrite field_index_index, (index_member fs 0).
    pose proof FO as FO'. pose proof (V rt) as VR.
    destruct (soperand sregs rt) as [|s|ty] eqn:SO; try discriminate.
    pose proof (record_rel _ _ _ _ _ _ _ _ _ R VR (V r) eq_refl FO) as RR.
    unfold call_modifier, field_set.
    destruct (record_of w (SObj ty) (soperand sregs r)) as [[n c]|] eqn:RO.
    + destruct RR as (a & l & E1 & E2 & E3 & E4 & E5 & E6 & E7 & E8 & HO).
      destruct (index 0 fs field) as [i|] eqn:IX; [|exact I].
      rewrite E7. unfold aset. cbn [fetch store]. rewrite E8.
      assert (i <? length l = true) as ->.
      { apply Nat.ltb_lt. destruct HO as [-> _]. apply index_ge in IX. lia. }
      cbn [store]. rewrite sput_upd by (eapply nth_lt; eauto).
      exists m.
      pose proof (s_obj _ _ _ R _ _ _ E3 E4) as OO. cbn in OO.
      destruct OO as (_ & at_ & name & fs' & l' & O1 & O2 & O3 & O4 & O5 & O6).
      assert (KT : forall at_ name fs, nth_error (heap st) at_ = Some (RType name fs) -> a - 1 <> at_).
      { intros q1 q2 q3 Q E; subst q1; congruence. }
      assert (TN : ty <> n) by (intro; subst; congruence).
      split; [|split; [apply V|split; [auto|split; [auto|]]]].
      * apply (upd_rel st m w n a); auto; rewrite ?E4; cbn; try lia; try discriminate.
        split; [assumption|]. exists at_, name, fs, (upd l i (operand_value regs x)).
        unfold fields_of in FO; cbn [sget] in FO. rewrite O2 in FO. injection FO as FO; subst fs'.
        repeat split; auto.
        -- rewrite upd_other; auto.
        -- rewrite upd_other; [auto|]. eapply KT; eauto.
        -- rewrite upd_other by lia; auto.
        -- apply upd_same. eapply nth_lt; eauto.
        -- rewrite upd_length. apply HO.
        -- apply holds_set; auto.
      * intros v nm f. destruct v; cbn; auto. intro Q. rewrite upd_other; auto. eapply KT; eauto.
    + destruct RR as [RR _]. rewrite RR. destruct (index 0 fs field); exact I.
  - (* Is *)
    cbn in FIT. destruct rt as [| |k]; cbn in FIT; try congruence.
    destruct (nth k types None) as [name|] eqn:TO; [|congruence].
    destruct TR as [_ TR]. destruct (TR _ _ TO) as (_ & _ & fs & FE).
    pose proof (V (OReg k)) as VK. pose proof (fetch_type _ _ _ _ _ R VK) as TF.
    cbn [operand_value soperand] in *. unfold type_fields in TF. rewrite FE in TF.
    unfold call_predicate.
    destruct (nth k sregs SNil) as [|s|ty] eqn:SK; try discriminate.
    rewrite (is_rel _ _ _ _ _ _ _ ty fs R VK (V r)); auto.
    apply same_rel; auto. apply truth_rel.
  - (* NewDatum *)
    cbn [make_datum alloc].
    assert (X : forall j y, nth_error (heap st) j = Some y -> nth_error (heap st ++ [Datum (Sym id) (operand_value regs x)]) j = Some y) by (intros; apply nth_snoc_old; auto).
    destruct (new_rel st m w _ (SDat id (soperand sregs x)) (length (heap st)) R X) as [A B].
    + cbn; lia.
    + cbn. exists (operand_value regs x). split; [apply nth_snoc_new|]. apply vrel_more; auto.
    + exists (m ++ [length (heap st)]). split; [exact A|]. split; [exact B|]. split; [apply regs_more; auto|].
      split; [intros; apply vrel_more; auto|]. apply fetch_more; auto.
  - (* DatumRef *)
    specialize (V d). unfold datum_ref. destruct (soperand sregs d) as [|s|n] eqn:SO.
    + destruct (operand_value regs d); cbn in V; try contradiction. exact I.
    + destruct (operand_value regs d); cbn in V; try contradiction. exact I.
    + pose proof (datum_rel _ _ _ _ _ R V) as D. cbn [sget].
      destruct (nth_error w n) as [[f|ty c|i x]|]; try contradiction.
      * rewrite D. exact I.
      * destruct D as (at_ & x & _ & D). rewrite D. exact I.
      * destruct D as (y & D & Y). rewrite D. cbn [veq]. destruct (Nat.eqb i id); [|exact I].
        apply same_rel; auto.
  - (* DatumSet *)
    pose proof (V d) as VD. unfold datum_set. destruct (soperand sregs d) as [|s|n] eqn:SO.
    + destruct (operand_value regs d); cbn in VD; try contradiction. exact I.
    + destruct (operand_value regs d); cbn in VD; try contradiction. exact I.
    + pose proof (datum_rel _ _ _ _ _ R VD) as D. cbn [sget].
      destruct (nth_error w n) as [[f|ty c|i y]|] eqn:N; try contradiction.
      * rewrite D. exact I.
      * destruct D as (at_ & y & _ & D). rewrite D. exact I.
      * destruct D as (y' & D & Y). rewrite D. cbn [veq].
        destruct (Nat.eqb_spec i id); [|exact I]. subst i.
        destruct (operand_value regs d) as [| | |a]; cbn in VD; try contradiction. cbn [store].
        rewrite sput_upd by (eapply nth_lt; eauto).
        cbn in D. destruct (nth_error (heap st) a) as [[]|] eqn:HA; try discriminate.
        assert (KT : forall at_ name fs, nth_error (heap st) at_ = Some (RType name fs) -> a <> at_).
        { intros q1 q2 q3 Q E; subst q1; congruence. }
        exists m. split; [|split; [apply V|split; [auto|split; [auto|]]]].
        -- apply (upd_rel st m w n a); auto; rewrite ?N; cbn; try lia; try discriminate.
           exists (operand_value regs x). split; [apply upd_same; eapply nth_lt; eauto|auto].
        -- intros u nm f. destruct u; cbn; auto. intro Q. rewrite upd_other; auto. eapply KT; eauto.
  - (* HasType *)
    assert (E : has_type_p st (operand_value regs d) (Sym id) =
                match sget w (soperand sregs d) with Some (SDat i _) => Nat.eqb i id | _ => false end).
    { specialize (V d). unfold has_type_p. destruct (soperand sregs d) as [|s|n].
      - destruct (operand_value regs d); cbn in V; try contradiction. auto.
      - destruct (operand_value regs d); cbn in V; try contradiction. auto.
      - pose proof (datum_rel _ _ _ _ _ R V) as D. cbn [sget].
        destruct (nth_error w n) as [[f|ty c|i x]|]; try contradiction.
        + rewrite D. auto.
        + destruct D as (at_ & x & _ & D). rewrite D. auto.
        + destruct D as (y & D & Y). rewrite D. auto. }
    rewrite E. apply same_rel; auto. apply truth_rel.
Qed.

Lemma run_rel p : forall st m w regs sregs types,
  srel st m w -> Forall2 (vrel m) regs sregs -> trel st types regs -> fits types p ->
  run st regs p = srun w sregs p.
Proof.
  induction p as [|o p IH]; intros st m w regs sregs types R F TR FIT; cbn; auto.
  destruct FIT as [F1 F2]. pose proof (step_rel _ _ _ _ _ _ o R F TR F1) as SR.
  assert (NEW : forall st' v, (forall v name fs, fetch st v = Some (RType name fs) -> fetch st' v = Some (RType name fs)) ->
    (forall name fields, o = NewType name fields -> fetch st' v = Some (RType name fields)) ->
    trel st' (types ++ [match o with NewType name _ => Some name | _ => None end]) (regs ++ [v])).
  { intros st' v K1 K2. destruct TR as [L T_]. split; [rewrite !app_length, L; auto|].
    intros n name H. destruct (Nat.lt_ge_cases n (length types)) as [Q|Q].
    - rewrite app_nth1 in H by auto. rewrite app_nth1 by lia.
      destruct (T_ _ _ H) as (A & B & fs & C). eauto 6.
    - rewrite app_nth2 in H by auto. destruct (n - length types) as [|j] eqn:E.
      + destruct o; try discriminate H. cbn in H. injection H as H; subst. cbn in F1. destruct F1.
        repeat split; auto. exists fields. rewrite app_nth2 by lia.
        replace (n - length regs) with 0 by lia. cbn. eauto.
      + destruct j; discriminate H. }
  unfold ostep_rel in SR.
  destruct (step st regs o) as [[v st']|] eqn:E, (sstep w sregs o) as [[sv w']|] eqn:E'; try contradiction.
  - destruct SR as (m' & R' & V' & F' & MM & KT).
    f_equal; [eapply see_rel; eauto|].
    eapply IH; eauto.
    + apply Forall2_app; auto.
    + apply NEW; auto. intros name fields ->. cbn in E. injection E as E1 E2; subst.
      cbn. apply nth_snoc_new.
  - f_equal. eapply IH; eauto.
    + apply Forall2_app; auto.
    + apply NEW; auto. intros name fields ->. cbn in E. discriminate.
Qed.

Lemma initial_rel : srel initial [] [].
Proof.
  constructor; auto; intros; destruct n; discriminate.
Qed.
