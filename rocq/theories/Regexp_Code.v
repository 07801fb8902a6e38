(** The code the compiler produces, in closed form. *)
From Coq Require Import List ZArith Bool Lia.
From Verif Require Import Regexp_Model Regexp_Spec.
Import ListNotations.
Open Scope nat_scope.

Definition node (op : Z) (off : nat) : list Z := [op; (Z.of_nat off / 256)%Z; (Z.of_nat off mod 256)%Z].
Definition tl_ (len : nat) (k : option nat) : nat := match k with Some d => len + d | None => 0 end.

Definition kind_op (k : kind) (neg : bool) : Z :=
  match k, neg with
  | Word, false => WORD | Word, true => NWORD
  | Space, false => WSPC | Space, true => NWSPC
  | Digit, false => DIGI | Digit, true => NDIGI
  end.
Definition citem_chars (i : citem) : list Z :=
  match i with CChr c => [c] | CRange a b => a :: range (Z.to_nat (b - a)) (a + 1)%Z end.

(** An atom followed by a quantifier; L is the length of the code x of the atom *)
Definition gen_quant (q : quant) (sg : bool) (L : nat) (x : option nat -> list Z) (k : option nat) : list Z :=
  match q with
  | One => x k
  | Star Greedy =>
      if sg then node STAR (tl_ (3 + L) k) ++ x None
      else node BRANCH (L + 6) ++ x (Some 0) ++ node BACK (L + 3) ++ node BRANCH 3 ++ node NOTHING (tl_ 3 k)
  | Star Lazy =>
      if sg then node NGSTAR (tl_ (3 + L) k) ++ x None
      else node BRANCH 6 ++ node NOTHING (L + 9) ++ node BRANCH (tl_ (L + 6) k) ++ x (Some 0) ++ node BACK (L + 9)
  | Plus Greedy =>
      if sg then node PLUS (tl_ (3 + L) k) ++ x None
      else x (Some 0) ++ node BRANCH 6 ++ node BACK (L + 3) ++ node BRANCH 3 ++ node NOTHING (tl_ 3 k)
  | Plus Lazy =>
      if sg then node NGPLUS (tl_ (3 + L) k) ++ x None
      else x (Some 0) ++ node BRANCH 6 ++ node NOTHING 9 ++ node BRANCH (tl_ 6 k) ++ node BACK (L + 9)
  | Opt _ => node BRANCH (L + 3) ++ x (Some 3) ++ node BRANCH 3 ++ node NOTHING (tl_ 3 k)
  end.

Fixpoint gen_atom (a : atom) (n : nat) (k : option nat) : list Z :=
  match a with
  | Lit cs => node EXACTLY (tl_ (length cs + 4) k) ++ cs ++ [0%Z]
  | Esc c => node EXACTLY (tl_ 5 k) ++ [c; 0%Z]
  | Bol => node BOL (tl_ 3 k)
  | Eol => node EOL (tl_ 3 k)
  | Any => node ANY (tl_ 3 k)
  | Edge => node WEDGE (tl_ 3 k)
  | NEdge => node NWEDGE (tl_ 3 k)
  | Cls neg l => node (if neg then ANYBUT else ANYOF) (tl_ (list_sum (map citem_size l) + 4) k)
                 ++ flat_map citem_chars l ++ [0%Z]
  | Kind kd neg => node (kind_op kd neg) (tl_ 3 k)
  | Grp r => node (OPEN + Z.of_nat n) 3 ++ gen r (S n) ++ node (CLOSE + Z.of_nat n) (tl_ 3 k)
  end
with gen (r : regex) (n : nat) : list Z :=
  match r with
  | Alt1 b => node BRANCH (3 + size_branch b) ++ gen_branch b n (Some 0)
  | Alt b r => node BRANCH (3 + size_branch b) ++ gen_branch b n (Some (size r)) ++ gen r (n + groups_branch b)
  end
with gen_branch (b : branch) (n : nat) (k : option nat) : list Z :=
  match b with
  | Nil => node NOTHING (tl_ 3 k)
  | Piece a q b' =>
      match b' with
      | Nil => gen_quant q (single a) (size_atom a) (gen_atom a n) k
      | _ => gen_quant q (single a) (size_atom a) (gen_atom a n) (Some 0) ++ gen_branch b' (n + groups_atom a) k
      end
  end.
Definition gen_piece a q n k := gen_quant q (single a) (size_atom a) (gen_atom a n) k.
Definition size_piece a q :=
  size_atom a + match q with One => 0 | Opt _ => 9 | Star _ | Plus _ => if single a then 3 else 12 end.

(** * Lengths *)
Lemma node_length op off : length (node op off) = 3.
Proof. reflexivity. Qed.
Global Opaque node.

Lemma quant_length q sg L x k :
  (forall k, length (x k) = L) -> length (gen_quant q sg L x k) = L + match q with One => 0 | Opt _ => 9 | Star _ | Plus _ => if sg then 3 else 12 end.
Proof.
  intros H. destruct q as [ | h | [ | ] | [ | ]]; cbn [gen_quant]; try destruct sg;
    repeat rewrite app_length; repeat rewrite node_length; repeat rewrite H; lia.
Qed.
Lemma range_length n c : length (range n c) = n.
Proof. revert c. induction n; intros; cbn [range length]; auto. Qed.
Lemma citems_length f neg l : good_items f neg l ->
  length (flat_map citem_chars l) = list_sum (map citem_size l).
Proof.
  revert f. induction l as [ | [c | a b] l IH]; intros f; cbn [good_items flat_map map list_sum citem_chars citem_size fold_right]; [reflexivity | | ].
  - intros (_ & _ & _ & _ & G). rewrite app_length. cbn [length]. f_equal. now apply (IH false).
  - intros (_ & _ & L & _ & _ & _ & _ & G). rewrite app_length. cbn [length]. rewrite range_length.
    rewrite (IH false G). change (fold_right Nat.add 0 (map citem_size l)) with (list_sum (map citem_size l)).
    lia.
Qed.

Lemma gen_length :
  (forall a, good_atom a -> forall n k, length (gen_atom a n k) = size_atom a) /\
  (forall r, good r -> forall n, length (gen r n) = size r) /\
  (forall b, good_branch b -> forall n k, length (gen_branch b n k) = size_branch b).
Proof.
  apply re_mind; try (intros; reflexivity).
  - intros cs _ n k. cbn [gen_atom size_atom]. rewrite !app_length, node_length. cbn [length]. lia.
  - intros neg l G n k. cbn [gen_atom size_atom]. rewrite !app_length, node_length. cbn [length].
    rewrite (citems_length true neg l G). lia.
  - intros r IH G n k. cbn [gen_atom size_atom]. rewrite !app_length, !node_length. cbn [good_atom] in G. rewrite (IH G). lia.
  - intros b IH G n. cbn [gen size]. rewrite app_length, node_length, (IH G). reflexivity.
  - intros b IHb r IHr [G1 G2] n. cbn [gen size]. rewrite !app_length, node_length, (IHb G1), (IHr G2). lia.
  - intros a IHa q b IHb (G1 & _ & _ & G2) n k. specialize (IHa G1). specialize (IHb G2).
    cbn [gen_branch size_branch].
    destruct b.
    + rewrite (quant_length q (single a) _ (gen_atom a n)) by auto. lia.
    + rewrite app_length, (quant_length q (single a) _ (gen_atom a n)) by auto. rewrite IHb. lia.
Qed.
Definition gen_atom_length := proj1 gen_length.
Definition gen_regex_length := proj1 (proj2 gen_length).
Definition gen_branch_length := proj2 (proj2 gen_length).
Lemma gen_piece_length a q n k : good_atom a -> length (gen_piece a q n k) = size_piece a q.
Proof.
  intros G. unfold gen_piece, size_piece. rewrite (quant_length q (single a) _ (gen_atom a n)); [reflexivity | ].
  intros. now apply gen_atom_length.
Qed.

(** * Reading nodes *)
Lemma nth_mid {A} (pre : list A) x suf : nth_error (pre ++ x :: suf) (length pre) = Some x.
Proof. induction pre; cbn; auto. Qed.
Lemma nth_mid1 {A} (pre : list A) x y suf : nth_error (pre ++ x :: y :: suf) (length pre + 1) = Some y.
Proof. induction pre; cbn; auto. Qed.
Lemma nth_mid2 {A} (pre : list A) x y z suf : nth_error (pre ++ x :: y :: z :: suf) (length pre + 2) = Some z.
Proof. induction pre; cbn; auto. Qed.

Transparent node.
Lemma op_node pre op off suf : op_at (pre ++ node op off ++ suf) (length pre) = Ok op.
Proof. unfold op_at, node. cbn [app]. now rewrite nth_mid. Qed.
Lemma node_byte off : (Z.of_nat off / 256 * 256 + Z.of_nat off mod 256)%Z = Z.of_nat off.
Proof. pose proof (Z.div_mod (Z.of_nat off) 256). lia. Qed.
Lemma next_node pre op off suf : regnext (pre ++ node op off ++ suf) (length pre) =
  if Nat.eqb off 0 then Ok None
  else if Z.eqb op BACK then if Nat.leb off (length pre) then Ok (Some (length pre - off)) else Wild
  else Ok (Some (length pre + off)).
Proof.
  unfold regnext, node. cbn [app]. rewrite nth_mid, nth_mid1, nth_mid2, node_byte, Nat2Z.id. reflexivity.
Qed.
Lemma set_node pre op off off' suf : (Z.of_nat off < 65536)%Z ->
  set_next (pre ++ node op off' ++ suf) (length pre) (Z.of_nat off) = pre ++ node op off ++ suf.
Proof.
  intros H. unfold set_next, node. cbn [app].
  replace (firstn (length pre + 1) (pre ++ op :: (Z.of_nat off' / 256)%Z :: (Z.of_nat off' mod 256)%Z :: suf)) with (pre ++ [op]).
  - replace (skipn (length pre + 3) (pre ++ op :: (Z.of_nat off' / 256)%Z :: (Z.of_nat off' mod 256)%Z :: suf)) with suf.
    + rewrite <- app_assoc. cbn [app]. rewrite (Z.mod_small (Z.of_nat off / 256)); [reflexivity | ].
      split; [apply Z.div_pos; lia | apply Z.div_lt_upper_bound; lia].
    + rewrite skipn_app. rewrite skipn_all2 by lia. replace (length pre + 3 - length pre) with 3 by lia. reflexivity.
  - rewrite firstn_app. rewrite firstn_all2 by lia. replace (length pre + 1 - length pre) with 1 by lia. reflexivity.
Qed.
Lemma next_short (c : list Z) p : length c <= p -> regnext c p = Wild.
Proof. intros H. unfold regnext. now rewrite (proj2 (nth_error_None c p) H). Qed.
Opaque node.

(** * Chains of nodes *)
Inductive walk (c : list Z) : nat -> nat -> Prop :=
| walk_end p : walk c p p
| walk_step p p' q : regnext c p = Ok (Some p') -> p < p' -> walk c p' q -> walk c p q.

Lemma regnext_app pre f suf p p' : p < length f -> p < p' -> regnext f p = Ok (Some p') ->
  regnext (pre ++ f ++ suf) (length pre + p) = Ok (Some (length pre + p')).
Proof.
  intros L L' H. unfold regnext in *.
  destruct (nth_error f p) as [x | ] eqn:E1; [ | discriminate].
  destruct (nth_error f (p + 1)) as [y | ] eqn:E2; [ | discriminate].
  destruct (nth_error f (p + 2)) as [z | ] eqn:E3; [ | discriminate].
  assert (X : forall q v, nth_error f q = Some v -> nth_error (pre ++ f ++ suf) (length pre + q) = Some v).
  { intros q v Q. assert (q < length f) by (apply nth_error_Some; congruence).
    rewrite nth_error_app2 by lia. replace (length pre + q - length pre) with q by lia.
    now rewrite nth_error_app1. }
  rewrite (X _ _ E1). rewrite <- !Nat.add_assoc. rewrite (X _ _ E2), (X _ _ E3).
  destruct (Nat.eqb _ 0) eqn:O; [discriminate | ]. apply Nat.eqb_neq in O.
  destruct (x =? BACK)%Z.
  - destruct (Nat.leb _ p) eqn:B; [ | discriminate]. injection H as H. apply Nat.leb_le in B. lia.
  - injection H as <-. do 2 f_equal. lia.
Qed.
Lemma regnext_lt f p p' : regnext f p = Ok p' -> p < length f.
Proof. unfold regnext. intros H. apply nth_error_Some. destruct (nth_error f p); congruence. Qed.
Lemma walk_app pre f suf p q : walk f p q -> walk (pre ++ f ++ suf) (length pre + p) (length pre + q).
Proof.
  induction 1 as [p | p p' q E L W IH]; [constructor | ].
  econstructor; [ | | exact IH]; [ | lia].
  apply regnext_app; auto. eapply regnext_lt; eauto.
Qed.
Lemma walk_trans c p q r : walk c p q -> walk c q r -> walk c p r.
Proof. induction 1; auto. intros. econstructor; eauto. Qed.
Lemma walk_le c p q : walk c p q -> p <= q.
Proof. induction 1; lia. Qed.
(** one node *)
Lemma walk_node pre op off suf : op <> BACK -> 0 < off ->
  walk (pre ++ node op off ++ suf) (length pre) (length pre + off).
Proof.
  intros B O. eapply walk_step; [ | | apply walk_end]; [ | lia].
  rewrite next_node. destruct (Nat.eqb_spec off 0); [lia | ]. destruct (Z.eqb_spec op BACK); [congruence | reflexivity].
Qed.

Lemma last_node_walk c q : regnext c q = Ok None -> forall p, walk c p q -> forall fuel, q < p + fuel -> last_node fuel c p = Ok q.
Proof.
  intros N p W. induction W as [p | p p' q E L W IH]; intros fuel F.
  - destruct fuel; [lia | ]. cbn [last_node]. rewrite N. reflexivity.
  - pose proof (walk_le _ _ _ W). destruct fuel; [lia | ]. cbn [last_node]. rewrite E. cbn [bind]. apply IH; [exact N | lia].
Qed.

Lemma regtail_node s p val pre op suf :
  code s = pre ++ node op 0 ++ suf -> walk (code s) p (length pre) -> op <> BACK ->
  length pre <= val -> (Z.of_nat (val - length pre) < 65536)%Z ->
  regtail p val s = Ok (with_code s (pre ++ node op (val - length pre) ++ suf)).
Proof.
  intros C W B L Sm. unfold regtail. cbv zeta.
  assert (N : regnext (code s) (length pre) = Ok None) by (rewrite C, next_node; reflexivity).
  rewrite (last_node_walk _ _ N _ W).
  - cbn [bind]. rewrite C, op_node. cbn [bind]. destruct (Z.eqb_spec op BACK); [congruence | ].
    rewrite <- Nat2Z.inj_sub by lia. now rewrite set_node.
  - rewrite C, !app_length, node_length. lia.
Qed.
Lemma regtail_back s p val pre suf :
  code s = pre ++ node BACK 0 ++ suf -> walk (code s) p (length pre) ->
  val <= length pre -> (Z.of_nat (length pre - val) < 65536)%Z ->
  regtail p val s = Ok (with_code s (pre ++ node BACK (length pre - val) ++ suf)).
Proof.
  intros C W L Sm. unfold regtail. cbv zeta.
  assert (N : regnext (code s) (length pre) = Ok None) by (rewrite C, next_node; reflexivity).
  rewrite (last_node_walk _ _ N _ W).
  - cbn [bind]. rewrite C, op_node. cbn [bind]. change ((BACK =? BACK)%Z) with true. cbv iota.
    rewrite <- Nat2Z.inj_sub by lia. now rewrite set_node.
  - rewrite C, !app_length, node_length. lia.
Qed.

(** * Fragments with one loose end *)
Definition loose (g : option nat -> list Z) : Prop :=
  exists A op B, walk A 0 (length A) /\ op <> BACK /\ forall k, g k = A ++ node op (tl_ (3 + length B) k) ++ B.

Lemma loose_walk g L k : loose g -> (forall k, length (g k) = L) -> walk (g (Some k)) 0 (L + k).
Proof.
  intros (A & op & B & W & O & G) HL. specialize (HL (Some k)). rewrite G in *. rewrite !app_length, node_length in HL.
  replace (L + k) with (length A + tl_ (3 + length B) (Some k)) by (cbn [tl_]; lia).
  eapply walk_trans; [ | apply walk_node; [exact O | cbn; lia]].
  apply (walk_app [] A (node op _ ++ B) 0 (length A) W).
Qed.

Lemma regtail_loose g L s C suf val k :
  loose g -> (forall k, length (g k) = L) -> code s = C ++ g None ++ suf ->
  val = length C + L + k -> (Z.of_nat (L + k) < 65536)%Z ->
  regtail (length C) val s = Ok (with_code s (C ++ g (Some k) ++ suf)).
Proof.
  intros (A & op & B & W & O & G) HL E V Sm. specialize (HL None). rewrite G in *. rewrite !app_length, node_length in HL.
  cbn [tl_] in E. rewrite <- !app_assoc in E.
  assert (E' : code s = (C ++ A) ++ node op 0 ++ (B ++ suf)) by (rewrite E, <- !app_assoc; reflexivity).
  rewrite (regtail_node s (length C) val (C ++ A) op (B ++ suf) E').
  - rewrite !app_length. rewrite <- !app_assoc. cbn [tl_].
    replace (val - (length C + length A)) with (3 + length B + k) by lia. reflexivity.
  - rewrite app_length. rewrite E. pose proof (walk_app C A (node op 0 ++ B ++ suf) 0 (length A) W) as X.
    now rewrite Nat.add_0_r in X.
  - exact O.
  - rewrite app_length. lia.
  - rewrite app_length. lia.
Qed.

(** walking into a fragment followed by more *)
Lemma walk_front f suf q : walk f 0 q -> walk (f ++ suf) 0 q.
Proof. intros W. exact (walk_app [] f suf 0 q W). Qed.
Lemma walk_after pre f : walk f 0 (length f) -> walk (pre ++ f) (length pre) (length (pre ++ f)).
Proof.
  intros W. pose proof (walk_app pre f [] 0 (length f) W) as X. rewrite app_nil_r, Nat.add_0_r in X.
  now rewrite app_length.
Qed.
Lemma walk_node0 op off suf q : op <> BACK -> q = off -> 0 < off -> walk (node op off ++ suf) 0 q.
Proof. intros O -> L. exact (walk_node [] op off suf O L). Qed.

Lemma loose_node op L B : op <> BACK -> L = 3 + length B -> loose (fun k => node op (tl_ L k) ++ B).
Proof. intros O ->. exists [], op, B. split; [constructor | ]. split; [exact O | reflexivity]. Qed.
Lemma loose_node_nil op : op <> BACK -> loose (fun k => node op (tl_ 3 k)).
Proof. intros O. exists [], op, []. split; [constructor | ]. split; [exact O | ]. intros k. cbn [app length Nat.add]. now rewrite app_nil_r. Qed.

Lemma loose_after g A : walk A 0 (length A) -> loose g -> loose (fun k => A ++ g k).
Proof.
  intros W (A' & op & B & W' & O & G). exists (A ++ A'), op, B. split; [ | split; [exact O | ]].
  - eapply walk_trans; [apply walk_front, W | ].
    now apply walk_after.
  - intros k. rewrite G. now rewrite <- app_assoc.
Qed.

Lemma tl_eq op a b k : a = b -> node op (tl_ a k) = node op (tl_ b k).
Proof. now intros ->. Qed.

Definition fine (q : quant) : bool := match q with Opt Lazy => false | _ => true end.

Lemma loose_quant q sg L x : fine q = true -> loose x -> (forall k, length (x k) = L) -> loose (gen_quant q sg L x).
Proof.
  intros F X HL.
  assert (WX : forall k, walk (x (Some k)) 0 (L + k)) by (intros; now apply loose_walk).
  assert (NB : BRANCH <> BACK) by discriminate.
  destruct q as [ | h | [ | ] | [ | ]]; cbn [gen_quant fine] in *.
  - exact X.
  - destruct h; [ | discriminate].
    eexists (node BRANCH (L + 3) ++ x (Some 3) ++ node BRANCH 3), NOTHING, [].
    split; [ | split; [discriminate | ]].
    + rewrite !app_length, !node_length, HL. eapply walk_trans with (q := L + 3).
      * apply walk_node0; [discriminate | reflexivity | lia].
      * pose proof (walk_node (node BRANCH (L + 3) ++ x (Some 3)) BRANCH 3 [] NB) as W.
        rewrite !app_length, node_length, HL, app_nil_r, <- app_assoc in W.
        replace (3 + (L + 3)) with (3 + L + 3) by lia. replace (L + 3) with (3 + L) at 2 by lia. apply W. lia.
    + intros k. rewrite <- !app_assoc. cbn [length Nat.add]. now rewrite app_nil_r.
  - destruct sg.
    + apply loose_node; [discriminate | now rewrite HL].
    + eexists (node BRANCH (L + 6) ++ x (Some 0) ++ node BACK (L + 3) ++ node BRANCH 3), NOTHING, [].
      split; [ | split; [discriminate | ]].
      * rewrite !app_length, !node_length, HL. eapply walk_trans with (q := L + 6).
        -- apply walk_node0; [discriminate | reflexivity | lia].
        -- pose proof (walk_node (node BRANCH (L + 6) ++ x (Some 0) ++ node BACK (L + 3)) BRANCH 3 [] NB) as W.
           rewrite !app_length, !node_length, HL, app_nil_r, <- !app_assoc in W.
           replace (3 + (L + (3 + 3))) with (3 + (L + 3) + 3) by lia. replace (L + 6) with (3 + (L + 3)) at 2 by lia. apply W. lia.
      * intros k. rewrite <- !app_assoc. cbn [length Nat.add]. now rewrite app_nil_r.
  - destruct sg.
    + apply loose_node; [discriminate | now rewrite HL].
    + eexists (node BRANCH 6 ++ node NOTHING (L + 9)), BRANCH, (x (Some 0) ++ node BACK (L + 9)).
      split; [ | split; [discriminate | ]].
      * rewrite !app_length, !node_length. apply walk_node0; [discriminate | reflexivity | lia].
      * intros k. cbn [gen_quant]. rewrite app_length, HL, node_length. rewrite (tl_eq BRANCH (L + 6) (3 + (L + 3)) k) by lia.
        rewrite <- !app_assoc. reflexivity.
  - destruct sg.
    + apply loose_node; [discriminate | now rewrite HL].
    + eexists (x (Some 0) ++ node BRANCH 6 ++ node BACK (L + 3) ++ node BRANCH 3), NOTHING, [].
      split; [ | split; [discriminate | ]].
      * rewrite !app_length, !node_length, HL. eapply walk_trans with (q := L).
        -- pose proof (WX 0) as W. rewrite Nat.add_0_r in W. now apply walk_front.
        -- eapply walk_trans with (q := L + 6).
           ++ pose proof (walk_node (x (Some 0)) BRANCH 6 (node BACK (L + 3) ++ node BRANCH 3) NB) as W.
              rewrite HL in W. apply W. lia.
           ++ pose proof (walk_node (x (Some 0) ++ node BRANCH 6 ++ node BACK (L + 3)) BRANCH 3 [] NB) as W.
              rewrite !app_length, !node_length, HL, app_nil_r, <- !app_assoc in W.
              replace (L + (3 + (3 + 3))) with (L + (3 + 3) + 3) by lia. replace (L + 6) with (L + (3 + 3)) by lia. apply W. lia.
      * intros k. rewrite <- !app_assoc. cbn [length Nat.add]. now rewrite app_nil_r.
  - destruct sg.
    + apply loose_node; [discriminate | now rewrite HL].
    + eexists (x (Some 0) ++ node BRANCH 6 ++ node NOTHING 9), BRANCH, (node BACK (L + 9)).
      split; [ | split; [discriminate | ]].
      * rewrite !app_length, !node_length, HL. eapply walk_trans with (q := L).
        -- pose proof (WX 0) as W. rewrite Nat.add_0_r in W. now apply walk_front.
        -- pose proof (walk_node (x (Some 0)) BRANCH 6 (node NOTHING 9) NB) as W.
           rewrite HL in W. apply W. lia.
      * intros k. rewrite <- !app_assoc. rewrite node_length. reflexivity.
Qed.

(** compiled without the faulty code for ?? *)
Fixpoint fine_atom (a : atom) : bool := match a with Grp r => fine_regex r | _ => true end
with fine_regex (r : regex) : bool :=
  match r with Alt1 b => fine_branch b | Alt b r => fine_branch b && fine_regex r end
with fine_branch (b : branch) : bool :=
  match b with Nil => true | Piece a q b => fine_atom a && fine q && fine_branch b end.

Lemma walk_branches_one pre b n k suf :
  walk (pre ++ node BRANCH (3 + size_branch b) ++ gen_branch b n k ++ suf) (length pre) (length pre + (3 + size_branch b)).
Proof. apply (walk_node pre BRANCH (3 + size_branch b)); [discriminate | lia]. Qed.

Lemma walk_gen r : good r -> forall n, walk (gen r n) 0 (length (gen r n)).
Proof.
  induction r as [b | b r IH]; intros G n.
  - rewrite (gen_regex_length _ G). cbn [gen size]. apply walk_node0; [discriminate | reflexivity | lia].
  - destruct G as [G1 G2]. cbn [gen].
    rewrite !app_length, node_length, (gen_branch_length b G1).
    eapply walk_trans with (q := 3 + size_branch b).
    + apply walk_node0; [discriminate | reflexivity | lia].
    + pose proof (walk_after (node BRANCH (3 + size_branch b) ++ gen_branch b n (Some (size r))) (gen r (n + groups_branch b)) (IH G2 _)) as W.
      rewrite !app_length, node_length, (gen_branch_length b G1), <- app_assoc in W.
      replace (3 + (size_branch b + length (gen r (n + groups_branch b)))) with (3 + size_branch b + length (gen r (n + groups_branch b))) by lia.
      exact W.
Qed.

Lemma loose_atom a n : good_atom a -> loose (gen_atom a n).
Proof.
  intros G. destruct a; cbn [gen_atom];
    try (apply loose_node_nil; discriminate);
    try (apply loose_node; [discriminate | cbn [length]; rewrite ?app_length; cbn [length]; lia]).
  - apply loose_node; [destruct neg; discriminate | ]. rewrite app_length. cbn [length].
    rewrite (citems_length true neg l G). lia.
  - apply loose_node_nil. destruct k, neg; discriminate.
  - change (loose (fun k => node (OPEN + Z.of_nat n) 3 ++ gen r (S n) ++ node (CLOSE + Z.of_nat n) (tl_ 3 k))).
    apply loose_after.
    + rewrite <- (app_nil_r (node _ 3)). apply walk_node0; [unfold OPEN, BACK; lia | | lia].
      rewrite app_length. cbn [length]. rewrite node_length. reflexivity.
    + apply loose_after; [now apply walk_gen | ]. apply loose_node_nil. unfold CLOSE, BACK. lia.
Qed.
Lemma loose_piece a q n : good_atom a -> fine q = true -> loose (gen_piece a q n).
Proof.
  intros G F. unfold gen_piece. apply loose_quant; auto.
  - now apply loose_atom.
  - intros. now apply gen_atom_length.
Qed.
Lemma walk_piece a q n k : good_atom a -> fine q = true -> walk (gen_piece a q n (Some k)) 0 (size_piece a q + k).
Proof. intros G F. apply loose_walk; [now apply loose_piece | intros; now apply gen_piece_length]. Qed.
Lemma loose_branch b : forall n, good_branch b -> fine_branch b = true -> loose (gen_branch b n).
Proof.
  induction b as [ | a q b IH]; intros n G F.
  - apply loose_node_nil. discriminate.
  - destruct G as (G1 & _ & _ & G2). cbn [fine_branch] in F. apply andb_true_iff in F as [F F2]. apply andb_true_iff in F as [F1 F].
    destruct b as [ | a' q' b'].
    + change (loose (gen_piece a q n)). now apply loose_piece.
    + change (loose (fun k => gen_piece a q n (Some 0) ++ gen_branch (Piece a' q' b') (n + groups_atom a) k)).
      apply loose_after; [ | now apply IH].
      rewrite gen_piece_length by auto. pose proof (walk_piece a q n 0 G1 F) as W. now rewrite Nat.add_0_r in W.
Qed.
