(** The compiler produces the code of Regexp_Code. *)
From Coq Require Import List ZArith Bool Lia ZifyBool.
From Verif Require Import Regexp_Model Regexp_Spec Regexp_Code.
Import ListNotations.
Open Scope nat_scope.

Transparent node.
Lemma node_zero op : [op; 0%Z; 0%Z] = node op 0.
Proof. reflexivity. Qed.

Lemma regnode_eq op p n c : regnode op (mkst p n c) = (length c, mkst p n (c ++ node op 0)).
Proof. reflexivity. Qed.
Lemma reginsert_eq op p n C X : reginsert op (length C) (mkst p n (C ++ X)) = mkst p n (C ++ node op 0 ++ X).
Proof.
  unfold reginsert, with_code. cbn [code parse npar]. f_equal.
  rewrite firstn_app, firstn_all, Nat.sub_diag, skipn_app, skipn_all, Nat.sub_diag. cbn [firstn skipn app].
  now rewrite app_nil_r.
Qed.
Opaque node.

(** regtail in the forms used *)
Lemma tail_walk p n from C op suf val c' off :
  op <> BACK -> val = length C + off -> (Z.of_nat off < 65536)%Z -> c' = C ++ node op off ++ suf ->
  walk (C ++ node op 0 ++ suf) from (length C) ->
  regtail from val (mkst p n (C ++ node op 0 ++ suf)) = Ok (mkst p n c').
Proof.
  intros O -> L -> W. rewrite (regtail_node (mkst p n (C ++ node op 0 ++ suf)) from (length C + off) C op suf eq_refl).
  - unfold with_code. cbn [parse npar]. replace (length C + off - length C) with off by lia. reflexivity.
  - exact W.
  - exact O.
  - lia.
  - replace (length C + off - length C) with off by lia. exact L.
Qed.
Lemma tail_node p n C op suf val c' off :
  op <> BACK -> val = length C + off -> (Z.of_nat off < 65536)%Z -> c' = C ++ node op off ++ suf ->
  regtail (length C) val (mkst p n (C ++ node op 0 ++ suf)) = Ok (mkst p n c').
Proof. intros O V L E. eapply tail_walk; eauto. constructor. Qed.
Lemma tail_back p n C suf val c' off from :
  length C = val + off -> (Z.of_nat off < 65536)%Z -> c' = C ++ node BACK off ++ suf ->
  walk (C ++ node BACK 0 ++ suf) from (length C) ->
  regtail from val (mkst p n (C ++ node BACK 0 ++ suf)) = Ok (mkst p n c').
Proof.
  intros E L -> W. rewrite (regtail_back (mkst p n (C ++ node BACK 0 ++ suf)) from val C suf eq_refl).
  - unfold with_code. cbn [parse npar]. replace (length C - val) with off by lia. reflexivity.
  - exact W.
  - lia.
  - replace (length C - val) with off by lia. exact L.
Qed.
Lemma tail_loose g L p n C suf val k c' :
  loose g -> (forall k, length (g k) = L) -> val = length C + L + k -> (Z.of_nat (L + k) < 65536)%Z ->
  c' = C ++ g (Some k) ++ suf ->
  regtail (length C) val (mkst p n (C ++ g None ++ suf)) = Ok (mkst p n c').
Proof.
  intros G HL V Sm ->. exact (regtail_loose g L (mkst p n (C ++ g None ++ suf)) C suf val k G HL (eq_refl _) V Sm).
Qed.
Lemma optail_branch p n C off x val r :
  regtail (length C + 3) val (mkst p n (C ++ node BRANCH off ++ x)) = r ->
  regoptail (length C) val (mkst p n (C ++ node BRANCH off ++ x)) = r.
Proof. intros <-. unfold regoptail. cbn [code]. rewrite op_node. reflexivity. Qed.

Lemma bind_ok {A B} (a : A) (f : A -> res B) r : f a = r -> bind (Ok a) f = r.
Proof. auto. Qed.

Ltac lens := rewrite ?app_length, ?node_length; cbn [length]; try lia.
Ltac norm := rewrite <- ?app_assoc; reflexivity.

Section Quant.
  Variables (x : option nat -> list Z) (L : nat).
  Hypothesis X : loose x.
  Hypothesis XL : forall k, length (x k) = L.
  Hypothesis small : (Z.of_nat L < 40000)%Z.
  Variables (p : list Z) (n : Z) (C : list Z).

  Lemma star_greedy :
    (let s := reginsert BRANCH (length C) (mkst p n (C ++ x None)) in
     let '(b, s) := regnode BACK s in
     let* s := regoptail (length C) b s in
     let* s := regoptail (length C) (length C) s in
     let '(b, s) := regnode BRANCH s in
     let* s := regtail (length C) b s in
     let '(b, s) := regnode NOTHING s in
     regtail (length C) b s)
    = Ok (mkst p n (C ++ gen_quant (Star Greedy) false L x None)).
  Proof.
    cbv zeta. rewrite reginsert_eq, regnode_eq.
    replace ((C ++ node BRANCH 0 ++ x None) ++ node BACK 0) with (C ++ node BRANCH 0 ++ x None ++ node BACK 0) by norm.
    erewrite optail_branch; cycle 1.
    { pose proof (tail_loose x L p n (C ++ node BRANCH 0) (node BACK 0) (length (C ++ node BRANCH 0 ++ x None)) 0
        (C ++ node BRANCH 0 ++ x (Some 0) ++ node BACK 0) X XL) as T.
      rewrite <- !app_assoc in T. replace (length (C ++ node BRANCH 0)) with (length C + 3) in T by lens. apply T; lens; try norm.
      rewrite XL. lia. }
    apply bind_ok. erewrite optail_branch; cycle 1.
    { pose proof (tail_back p n (C ++ node BRANCH 0 ++ x (Some 0)) [] (length C) (C ++ node BRANCH 0 ++ x (Some 0) ++ node BACK (L + 3)) (L + 3) (length C + 3)) as T.
      rewrite !app_nil_r in T. rewrite <- !app_assoc in T. apply T; lens; try norm.
      - rewrite XL. lia.
      - rewrite XL. pose proof (walk_app (C ++ node BRANCH 0) (x (Some 0)) (node BACK 0) 0 (L + 0) (loose_walk x L 0 X XL)) as W.
        rewrite <- !app_assoc in W. rewrite app_length, node_length in W.
        replace (length C + 3 + 0) with (length C + 3) in W by lia. replace (length C + (3 + L)) with (length C + 3 + (L + 0)) by lia. exact W. }
    apply bind_ok. rewrite regnode_eq.
    replace ((C ++ node BRANCH 0 ++ x (Some 0) ++ node BACK (L + 3)) ++ node BRANCH 0)
      with (C ++ node BRANCH 0 ++ x (Some 0) ++ node BACK (L + 3) ++ node BRANCH 0) by norm.
    erewrite (tail_node p n C BRANCH (x (Some 0) ++ node BACK (L + 3) ++ node BRANCH 0) _ _ (L + 6));
      [ | discriminate | lens; rewrite XL; lia | lia | reflexivity].
    apply bind_ok. rewrite regnode_eq.
    replace ((C ++ node BRANCH (L + 6) ++ x (Some 0) ++ node BACK (L + 3) ++ node BRANCH 0) ++ node NOTHING 0)
      with ((C ++ node BRANCH (L + 6) ++ x (Some 0) ++ node BACK (L + 3)) ++ node BRANCH 0 ++ node NOTHING 0) by norm.
    apply (tail_walk p n (length C) (C ++ node BRANCH (L + 6) ++ x (Some 0) ++ node BACK (L + 3)) BRANCH (node NOTHING 0) _ _ 3);
      [discriminate | lens | lia | | ].
    - cbn [gen_quant tl_]. norm.
    - rewrite <- !app_assoc. lens. rewrite XL. replace (length C + (3 + (L + 3))) with (length C + (L + 6)) by lia.
      apply walk_node; [discriminate | lia].
  Qed.

  Lemma star_lazy :
    (let s := reginsert BRANCH (length C) (mkst p n (C ++ x None)) in
     let s := reginsert NOTHING (length C) s in
     let s := reginsert BRANCH (length C) s in
     let '(b, s) := regnode BACK s in
     let* s := regtail (length C + 9) b s in
     let* s := regtail (length C + 9) (length C) s in
     let* s := regtail (length C) (length C + 6) s in
     regtail (length C + 3) (length (code s)) s)
    = Ok (mkst p n (C ++ gen_quant (Star Lazy) false L x None)).
  Proof.
    cbv zeta. rewrite !reginsert_eq, regnode_eq.
    set (H := node BRANCH 0 ++ node NOTHING 0 ++ node BRANCH 0).
    replace ((C ++ node BRANCH 0 ++ node NOTHING 0 ++ node BRANCH 0 ++ x None) ++ node BACK 0)
      with ((C ++ H) ++ x None ++ node BACK 0) by (unfold H; norm).
    assert (HL : length (C ++ H) = length C + 9) by (unfold H; lens).
    rewrite <- HL.
    erewrite (tail_loose x L p n (C ++ H) (node BACK 0) _ 0); [ | exact X | exact XL | unfold H; lens; rewrite XL; lia | lia | reflexivity].
    apply bind_ok.
    replace ((C ++ H) ++ x (Some 0) ++ node BACK 0) with ((C ++ H ++ x (Some 0)) ++ node BACK 0 ++ []) by (rewrite app_nil_r; norm).
    erewrite (tail_back p n (C ++ H ++ x (Some 0)) [] (length C) _ (L + 9)); cycle 1.
    { unfold H. lens. rewrite XL. lia. }
    { lia. }
    { reflexivity. }
    { pose proof (walk_app (C ++ H) (x (Some 0)) (node BACK 0 ++ []) 0 (L + 0) (loose_walk x L 0 X XL)) as W.
      rewrite <- !app_assoc in *. rewrite Nat.add_0_r in W. replace (length (C ++ H ++ x (Some 0))) with (length (C ++ H) + (L + 0)); [exact W | ].
      unfold H. lens. rewrite XL. lia. }
    apply bind_ok. rewrite app_nil_r.
    replace ((C ++ H ++ x (Some 0)) ++ node BACK (L + 9)) with (C ++ node BRANCH 0 ++ node NOTHING 0 ++ node BRANCH 0 ++ x (Some 0) ++ node BACK (L + 9)) by (unfold H; norm).
    erewrite (tail_node p n C BRANCH _ _ _ 6); [ | discriminate | reflexivity | lia | reflexivity].
    apply bind_ok. cbn [code].
    replace (C ++ node BRANCH 6 ++ node NOTHING 0 ++ node BRANCH 0 ++ x (Some 0) ++ node BACK (L + 9))
      with ((C ++ node BRANCH 6) ++ node NOTHING 0 ++ node BRANCH 0 ++ x (Some 0) ++ node BACK (L + 9)) by norm.
    replace (length C + 3) with (length (C ++ node BRANCH 6)) by lens.
    apply (tail_node p n (C ++ node BRANCH 6) NOTHING _ _ _ (L + 9)); [discriminate | lens; rewrite XL; lia | lia | ].
    cbn [gen_quant tl_]. norm.
  Qed.

  Lemma plus_greedy :
    (let '(next, s) := regnode BRANCH (mkst p n (C ++ x None)) in
     let* s := regtail (length C) next s in
     let '(b, s) := regnode BACK s in
     let* s := regtail b (length C) s in
     let '(b, s) := regnode BRANCH s in
     let* s := regtail next b s in
     let '(b, s) := regnode NOTHING s in
     regtail (length C) b s)
    = Ok (mkst p n (C ++ gen_quant (Plus Greedy) false L x None)).
  Proof.
    rewrite regnode_eq. replace ((C ++ x None) ++ node BRANCH 0) with (C ++ x None ++ node BRANCH 0) by norm.
    erewrite (tail_loose x L p n C (node BRANCH 0) _ 0); [ | exact X | exact XL | lens; rewrite XL; lia | lia | reflexivity].
    apply bind_ok. rewrite regnode_eq.
    replace ((C ++ x (Some 0) ++ node BRANCH 0) ++ node BACK 0) with ((C ++ x (Some 0) ++ node BRANCH 0) ++ node BACK 0 ++ []) by (rewrite app_nil_r; norm).
    erewrite (tail_back p n (C ++ x (Some 0) ++ node BRANCH 0) [] (length C) _ (L + 3)); cycle 1.
    { lens. rewrite XL. lia. }
    { lia. }
    { reflexivity. }
    { apply walk_end. }
    apply bind_ok. rewrite app_nil_r, regnode_eq.
    replace (((C ++ x (Some 0) ++ node BRANCH 0) ++ node BACK (L + 3)) ++ node BRANCH 0)
      with ((C ++ x (Some 0)) ++ node BRANCH 0 ++ node BACK (L + 3) ++ node BRANCH 0) by norm.
    replace (length (C ++ x None)) with (length (C ++ x (Some 0))) by (lens; now rewrite !XL).
    erewrite (tail_node p n (C ++ x (Some 0)) BRANCH _ _ _ 6); [ | discriminate | lens | lia | reflexivity].
    apply bind_ok. rewrite regnode_eq.
    replace (((C ++ x (Some 0)) ++ node BRANCH 6 ++ node BACK (L + 3) ++ node BRANCH 0) ++ node NOTHING 0)
      with ((C ++ x (Some 0) ++ node BRANCH 6 ++ node BACK (L + 3)) ++ node BRANCH 0 ++ node NOTHING 0) by norm.
    apply (tail_walk p n (length C) (C ++ x (Some 0) ++ node BRANCH 6 ++ node BACK (L + 3)) BRANCH (node NOTHING 0) _ _ 3);
      [discriminate | lens | lia | | ].
    - cbn [gen_quant tl_]. norm.
    - rewrite <- !app_assoc. lens. rewrite XL.
      eapply walk_trans with (q := length C + L).
      + pose proof (walk_app C (x (Some 0)) (node BRANCH 6 ++ node BACK (L + 3) ++ node BRANCH 0 ++ node NOTHING 0) 0 (L + 0) (loose_walk x L 0 X XL)) as W.
        rewrite !Nat.add_0_r in W. exact W.
      + pose proof (walk_node (C ++ x (Some 0)) BRANCH 6 (node BACK (L + 3) ++ node BRANCH 0 ++ node NOTHING 0)) as W.
        rewrite <- app_assoc, app_length, XL in W. replace (length C + (L + (3 + 3))) with (length C + L + 6) by lia.
        apply W; [discriminate | lia].
  Qed.

  Lemma plus_lazy :
    (let '(next, s) := regnode BRANCH (mkst p n (C ++ x None)) in
     let* s := regtail (length C) next s in
     let '(null, s) := regnode NOTHING s in
     let '(b2, s) := regnode BRANCH s in
     let '(b, s) := regnode BACK s in
     let* s := regtail b (length C) s in
     let* s := regtail next b2 s in
     regtail null (length (code s)) s)
    = Ok (mkst p n (C ++ gen_quant (Plus Lazy) false L x None)).
  Proof.
    rewrite regnode_eq. replace ((C ++ x None) ++ node BRANCH 0) with (C ++ x None ++ node BRANCH 0) by norm.
    erewrite (tail_loose x L p n C (node BRANCH 0) _ 0); [ | exact X | exact XL | lens; rewrite XL; lia | lia | reflexivity].
    apply bind_ok. rewrite !regnode_eq.
    replace ((((C ++ x (Some 0) ++ node BRANCH 0) ++ node NOTHING 0) ++ node BRANCH 0) ++ node BACK 0)
      with (((C ++ x (Some 0)) ++ node BRANCH 0 ++ node NOTHING 0 ++ node BRANCH 0) ++ node BACK 0 ++ []) by (rewrite app_nil_r; norm).
    replace (length (((C ++ x (Some 0) ++ node BRANCH 0) ++ node NOTHING 0) ++ node BRANCH 0))
      with (length ((C ++ x (Some 0)) ++ node BRANCH 0 ++ node NOTHING 0 ++ node BRANCH 0)) by lens.
    erewrite (tail_back p n ((C ++ x (Some 0)) ++ node BRANCH 0 ++ node NOTHING 0 ++ node BRANCH 0) [] (length C) _ (L + 9)); cycle 1.
    { lens. rewrite XL. lia. }
    { lia. }
    { reflexivity. }
    { apply walk_end. }
    apply bind_ok. rewrite app_nil_r.
    replace (((C ++ x (Some 0)) ++ node BRANCH 0 ++ node NOTHING 0 ++ node BRANCH 0) ++ node BACK (L + 9))
      with ((C ++ x (Some 0)) ++ node BRANCH 0 ++ node NOTHING 0 ++ node BRANCH 0 ++ node BACK (L + 9)) by norm.
    replace (length (C ++ x None)) with (length (C ++ x (Some 0))) by (lens; now rewrite !XL).
    erewrite (tail_node p n (C ++ x (Some 0)) BRANCH _ _ _ 6); [ | discriminate | lens | lia | reflexivity].
    apply bind_ok. cbn [code].
    replace ((C ++ x (Some 0)) ++ node BRANCH 6 ++ node NOTHING 0 ++ node BRANCH 0 ++ node BACK (L + 9))
      with ((C ++ x (Some 0) ++ node BRANCH 6) ++ node NOTHING 0 ++ node BRANCH 0 ++ node BACK (L + 9)) by norm.
    replace (length (C ++ x (Some 0) ++ node BRANCH 0)) with (length (C ++ x (Some 0) ++ node BRANCH 6)) by lens.
    apply (tail_node p n (C ++ x (Some 0) ++ node BRANCH 6) NOTHING _ _ _ 9); [discriminate | lens | lia | ].
    cbn [gen_quant tl_]. norm.
  Qed.

  Lemma opt_greedy :
    (let s := reginsert BRANCH (length C) (mkst p n (C ++ x None)) in
     let '(b, s) := regnode BRANCH s in
     let* s := regtail (length C) b s in
     let '(next, s) := regnode NOTHING s in
     let* s := regtail (length C) next s in
     regoptail (length C) next s)
    = Ok (mkst p n (C ++ gen_quant (Opt Greedy) false L x None)).
  Proof.
    cbv zeta. rewrite reginsert_eq, regnode_eq.
    replace ((C ++ node BRANCH 0 ++ x None) ++ node BRANCH 0) with (C ++ node BRANCH 0 ++ x None ++ node BRANCH 0) by norm.
    erewrite (tail_node p n C BRANCH _ _ _ (L + 3)); [ | discriminate | lens; rewrite XL; lia | lia | reflexivity].
    apply bind_ok. rewrite regnode_eq.
    replace ((C ++ node BRANCH (L + 3) ++ x None ++ node BRANCH 0) ++ node NOTHING 0)
      with ((C ++ node BRANCH (L + 3) ++ x None) ++ node BRANCH 0 ++ node NOTHING 0) by norm.
    erewrite (tail_walk p n (length C) (C ++ node BRANCH (L + 3) ++ x None) BRANCH (node NOTHING 0) _ _ 3);
      [ | discriminate | lens | lia | reflexivity | ].
    - apply bind_ok.
      replace ((C ++ node BRANCH (L + 3) ++ x None) ++ node BRANCH 3 ++ node NOTHING 0)
        with (C ++ node BRANCH (L + 3) ++ x None ++ node BRANCH 3 ++ node NOTHING 0) by norm.
      apply optail_branch.
      pose proof (tail_loose x L p n (C ++ node BRANCH (L + 3)) (node BRANCH 3 ++ node NOTHING 0)
         (length (C ++ node BRANCH (L + 3) ++ x None ++ node BRANCH 0)) 3
         (C ++ gen_quant (Opt Greedy) false L x None) X XL) as T.
      rewrite <- !app_assoc in T. replace (length (C ++ node BRANCH (L + 3))) with (length C + 3) in T by lens.
      apply T; [lens; rewrite XL; lia | lia | ]. cbn [gen_quant tl_]. norm.
    - rewrite <- !app_assoc. lens. rewrite XL. replace (length C + (3 + L)) with (length C + (L + 3)) by lia.
      apply walk_node; [discriminate | lia].
  Qed.
End Quant.

Lemma quant_sg q L x k : fine q = true -> match q with Star _ | Plus _ => False | _ => True end ->
  forall a b, gen_quant q a L x k = gen_quant q b L x k.
Proof. destruct q as [ | h | [ | ] | [ | ]]; cbn; tauto. Qed.

Definition quant_width (a : atom) (q : quant) : bool :=
  match q with One => width_atom a | Plus _ => true | _ => false end.

Lemma quantify_ok a q n C rest np fl :
  good_atom a -> fine q = true -> (match q with Star _ | Plus _ => width_atom a = true | _ => True end) ->
  simple fl = single a -> hasw fl = width_atom a -> ismult (hd 0%Z rest) = false -> (Z.of_nat (size_atom a) < 40000)%Z ->
  exists fl', hasw fl' = quant_width a q /\
  quantify (length C) fl (mkst (show_quant q ++ rest) np (C ++ gen_atom a n None))
  = Ok (fl', mkst rest np (C ++ gen_piece a q n None)).
Proof.
  intros G F W SF HF R Sm.
  assert (R' : (hd 0%Z rest =? 63)%Z = false).
  { unfold ismult in R. destruct (hd 0%Z rest =? 63)%Z; [ | reflexivity]. now rewrite !orb_true_r in R. }
  pose proof (loose_atom a n G) as X. pose proof (gen_atom_length a G n) as XL.
  unfold gen_piece.
  destruct q as [ | [ | ] | [ | ] | [ | ]]; cbn [fine] in F; try discriminate;
    unfold quantify, cur, cur1; cbn [show_quant show_how app parse hd tl]; cbv zeta.
  - rewrite R. cbn [negb]. exists fl. split; [exact HF | reflexivity].
  - change (ismult 63) with true. cbn [negb]. change ((63 =? 63)%Z) with true. rewrite andb_false_r.
    change ((63 =? 43)%Z) with false. change ((63 =? 42)%Z) with false. cbn [andb]. rewrite R'. cbn [negb].
    rewrite (opt_greedy (gen_atom a n) (size_atom a) X XL Sm). cbn [bind].
    unfold advance. cbn [parse npar code tl]. rewrite R.
    eexists. split; [ | reflexivity]. reflexivity.
  - change (ismult 42) with true. cbn [negb]. rewrite HF, W. cbn [negb andb].
    change ((42 =? 43)%Z) with false. change ((42 =? 42)%Z) with true. cbn [andb]. rewrite R', SF. cbn [negb].
    destruct (single a).
    + rewrite reginsert_eq. cbn [bind]. unfold advance. cbn [parse npar code tl]. rewrite R.
      eexists. split; [ | reflexivity]. reflexivity.
    + rewrite (star_greedy (gen_atom a n) (size_atom a) X XL Sm). cbn [bind].
      unfold advance. cbn [parse npar code tl]. rewrite R. eexists. split; [ | reflexivity]. reflexivity.
  - change (ismult 42) with true. cbn [negb]. rewrite HF, W. cbn [negb andb].
    change ((42 =? 43)%Z) with false. change ((42 =? 42)%Z) with true. change ((63 =? 63)%Z) with true. cbn [andb]. rewrite SF. cbn [negb].
    destruct (single a).
    + rewrite reginsert_eq. cbn [bind]. unfold advance. cbn [parse npar code tl]. rewrite R.
      eexists. split; [ | reflexivity]. reflexivity.
    + rewrite (star_lazy (gen_atom a n) (size_atom a) X XL Sm). cbn [bind].
      unfold advance. cbn [parse npar code tl]. rewrite R. eexists. split; [ | reflexivity]. reflexivity.
  - change (ismult 43) with true. cbn [negb]. rewrite HF, W. cbn [negb andb].
    change ((43 =? 43)%Z) with true. change ((43 =? 42)%Z) with false. cbn [andb]. rewrite R', SF. cbn [negb].
    destruct (single a).
    + rewrite reginsert_eq. cbn [bind]. unfold advance. cbn [parse npar code tl]. rewrite R.
      eexists. split; [ | reflexivity]. reflexivity.
    + rewrite (plus_greedy (gen_atom a n) (size_atom a) X XL Sm). cbn [bind].
      unfold advance. cbn [parse npar code tl]. rewrite R. eexists. split; [ | reflexivity]. reflexivity.
  - change (ismult 43) with true. cbn [negb]. rewrite HF, W. cbn [negb andb].
    change ((43 =? 43)%Z) with true. change ((43 =? 42)%Z) with false. change ((63 =? 63)%Z) with true. cbn [andb]. rewrite SF. cbn [negb].
    destruct (single a).
    + rewrite reginsert_eq. cbn [bind]. unfold advance. cbn [parse npar code tl]. rewrite R.
      eexists. split; [ | reflexivity]. reflexivity.
    + rewrite (plus_lazy (gen_atom a n) (size_atom a) X XL Sm). cbn [bind].
      unfold advance. cbn [parse npar code tl]. rewrite R. eexists. split; [ | reflexivity]. reflexivity.
Qed.

(** * Atoms *)
Lemma special_meta c : char c -> ~ special c -> meta c = false /\ ismult c = false /\ stop c = false /\
  (c =? 94)%Z = false /\ (c =? 36)%Z = false /\ (c =? 46)%Z = false /\ (c =? 91)%Z = false /\ (c =? 40)%Z = false /\ (c =? 92)%Z = false.
Proof.
  intros H S. unfold special in S. cbn [In] in S. unfold char in H. unfold meta, stop, ismult.
  assert (X : forall k, k = c \/ c <> k) by (intros; lia).
  repeat match goal with |- context[(c =? ?k)%Z] => destruct (Z.eqb_spec c k); [exfalso; lia | ] end.
  cbn. auto 20.
Qed.

Lemma classes_ok neg rest np l : forall C f prev, good_items false neg l ->
  length (flat_map show_citem l) < f ->
  regclass f prev (mkst (flat_map show_citem l ++ 93%Z :: rest) np C) = Ok (mkst (93%Z :: rest) np (C ++ flat_map citem_chars l)).
Proof.
  induction l as [ | [c | a b] l IH]; intros C f prev G F; (destruct f; [cbn [length flat_map show_citem app] in F; lia | ]).
  - cbn [flat_map app regclass cur parse hd]. rewrite app_nil_r. reflexivity.
  - destruct G as (G1 & G2 & G3 & _ & G). cbn [flat_map show_citem citem_chars app regclass]. unfold cur. cbn [parse hd].
    unfold char in G1. replace (c =? 0)%Z with false by lia. replace (c =? 93)%Z with false by lia. cbn [orb].
    destruct (Z.eqb_spec c 45) as [-> | N].
    + destruct (G3 eq_refl) as [X | ->]; [discriminate | ]. cbn [flat_map app advance parse tl hd].
      change (93 =? 93)%Z with true. cbn [orb]. cbn [length] in F.
      unfold regc, with_code, advance. cbn [code parse npar tl]. assert (F' : length (flat_map show_citem (@nil citem)) < f) by (cbn [length flat_map show_citem app] in *; lia). pose proof (IH (C ++ [45%Z]) f 45%Z G F') as K. cbn [flat_map app] in K. rewrite K.
      now rewrite app_nil_r.
    + unfold advance, regc, with_code. cbn [code parse npar tl]. rewrite (IH (C ++ [c]) f c G) by (cbn [length flat_map show_citem app] in *; lia).
      now rewrite <- app_assoc.
  - destruct G as (G1 & G2 & G3 & G4 & G5 & G6 & _ & G). cbn [flat_map show_citem citem_chars app regclass]. unfold cur. cbn [parse hd].
    unfold char in *. replace (a =? 0)%Z with false by lia. replace (a =? 93)%Z with false by lia. cbn [orb].
    assert (a <> 45%Z) by (intros E; specialize (G6 E); discriminate).
    replace (a =? 45)%Z with false by lia.
    unfold advance, regc, with_code. cbn [code parse npar tl].
    destruct f; [cbn [length flat_map show_citem app] in F; lia | ]. cbn [regclass]. unfold cur. cbn [parse hd].
    change (45 =? 0)%Z with false. change (45 =? 93)%Z with false. change (45 =? 45)%Z with true. cbn [orb].
    unfold advance, with_code. cbn [code parse npar tl hd].
    replace (b =? 93)%Z with false by lia. replace (b =? 0)%Z with false by lia. cbn [orb].
    replace (b + 1 <? a + 1)%Z with false by lia.
    rewrite (IH _ f b G) by (cbn [length flat_map show_citem app] in *; lia). rewrite <- !app_assoc. cbn [app].
    replace (b + 1 - (a + 1))%Z with (b - a)%Z by lia. reflexivity.
Qed.
Lemma range_rest b a neg rest np l C f : good_items false neg l -> char b -> (a <= b)%Z -> b <> 93%Z -> length (flat_map show_citem l) + 1 < f ->
  regclass f a (mkst (45%Z :: b :: flat_map show_citem l ++ 93%Z :: rest) np C)
  = Ok (mkst (93%Z :: rest) np (C ++ range (Z.to_nat (b - a)) (a + 1)%Z ++ flat_map citem_chars l)).
Proof.
  intros G G2 G3 G4 F. destruct f; [lia | ]. cbn [regclass]. unfold cur. cbn [parse hd].
  change (45 =? 0)%Z with false. change (45 =? 93)%Z with false. change (45 =? 45)%Z with true. cbn [orb].
  unfold advance, with_code, char in *. cbn [code parse npar tl hd].
  replace (b =? 93)%Z with false by lia. replace (b =? 0)%Z with false by lia. cbn [orb].
  replace (b + 1 <? a + 1)%Z with false by lia.
  rewrite (classes_ok neg) by (auto; lia). rewrite <- !app_assoc.
  replace (b + 1 - (a + 1))%Z with (b - a)%Z by lia. reflexivity.
Qed.
Definition follows (a : atom) (rest : list Z) : Prop :=
  match a with
  | Lit cs => (meta (hd 0%Z rest) = true /\ (1 < length cs -> ismult (hd 0%Z rest) = false)) \/
              (meta (hd 0%Z rest) = false /\ ismult (hd 0%Z (tl rest)) = true)
  | _ => True
  end.

Lemma run_app cs rest : Forall (fun c => char c /\ ~ special c) cs ->
  run_length (cs ++ rest) = length cs + run_length rest.
Proof.
  induction 1 as [ | c cs [H1 H2] _ IH]; [reflexivity | ]. cbn [app run_length length].
  destruct (special_meta c H1 H2) as (-> & _). rewrite IH. reflexivity.
Qed.

Definition atom_ok (a : atom) : Prop := forall n C rest f,
  good_atom a -> fine_atom a = true -> n + groups_atom a <= 10 -> (Z.of_nat (size_atom a) < 40000)%Z ->
  follows a rest -> 4 * length (show_atom a) <= f ->
  exists fl, hasw fl = width_atom a /\ simple fl = single a /\
  regatom f (mkst (show_atom a ++ rest) (Z.of_nat n) C)
  = Ok (length C, fl, mkst rest (Z.of_nat (n + groups_atom a)) (C ++ gen_atom a n None)).

Lemma lit_run cs rest : cs <> [] -> Forall (fun c => char c /\ ~ special c) cs -> follows (Lit cs) rest ->
  (let len := run_length (cs ++ rest) in
   let ender := hd 0%Z (skipn len (cs ++ rest)) in
   if Nat.ltb 1 len && ismult ender then (len - 1)%nat else len) = length cs.
Proof.
  intros N G Fo. cbv zeta. rewrite run_app by auto.
  destruct Fo as [[M I] | [M I]].
  - assert (R0 : run_length rest = 0).
    { destruct rest as [ | x rest]; [reflexivity | ]. cbn [hd] in M. cbn [run_length]. now rewrite M. }
    rewrite R0, Nat.add_0_r. rewrite skipn_app, skipn_all, Nat.sub_diag. cbn [app skipn].
    destruct (Nat.ltb_spec 1 (length cs)); [ | reflexivity]. now rewrite I.
  - destruct rest as [ | x rest]; [discriminate | ]. cbn [hd tl] in *. cbn [run_length]. rewrite M.
    destruct rest as [ | y rest]; [discriminate | ]. cbn [hd] in I.
    assert (My : meta y = true) by (unfold meta; rewrite I; now rewrite !orb_true_r).
    cbn [run_length]. rewrite My.
    rewrite skipn_app, skipn_all2 by lia. replace (length cs + 1 - length cs) with 1 by lia. cbn [app skipn hd]. rewrite I.
    destruct cs; [congruence | ]. cbn [length]. replace (Nat.ltb 1 (S (length cs) + 1)) with true by (symmetry; apply Nat.ltb_lt; lia).
    cbn [andb]. lia.
Qed.

Lemma leaf_eq op fl p n C : leaf op fl (mkst p n C) = Ok (length C, fl, mkst p n (C ++ node op 0)).
Proof. unfold leaf. now rewrite regnode_eq. Qed.

Lemma lit_ok cs : atom_ok (Lit cs).
Proof.
  intros n C rest f [N G] _ _ _ Fo F. pose proof (lit_run cs rest N G Fo) as R. cbv zeta in R.
  cbn [show_atom groups_atom size_atom gen_atom single width_atom] in *.
  destruct cs as [ | c cs]; [congruence | ]. destruct f; [cbn [length] in F; lia | ].
  exists (mkfl true (Nat.eqb (length (c :: cs)) 1) false). split; [reflexivity | ]. split.
  { destruct cs; reflexivity. }
  cbn [regatom]. unfold cur. cbn [parse app hd]. inversion G as [ | ? ? [G1 G2] G']; subst.
  destruct (special_meta c G1 G2) as (_ & -> & -> & -> & -> & -> & -> & -> & ->).
  cbv zeta. rewrite !app_comm_cons. rewrite R. rewrite regnode_eq. cbn [parse npar code].
  rewrite firstn_app, firstn_all, Nat.sub_diag, skipn_app, skipn_all, Nat.sub_diag. cbn [firstn skipn app].
  rewrite Nat.add_0_r, app_nil_r, <- !app_assoc. reflexivity.
Qed.

Lemma esc_ok c : atom_ok (Esc c).
Proof.
  intros n C rest f [G N] _ _ _ _ F. cbn [show_atom length] in F. destruct f; [lia | ].
  exists Regexp_Model.width. split; [reflexivity | ]. split; [reflexivity | ].
  cbn [show_atom app regatom]. unfold cur, advance. cbn [parse hd tl npar code].
  change (92 =? 94)%Z with false. change (92 =? 36)%Z with false. change (92 =? 46)%Z with false.
  change (92 =? 91)%Z with false. change (92 =? 40)%Z with false. change (stop 92) with false. change (ismult 92) with false.
  change (92 =? 92)%Z with true. cbn iota.
  unfold regescape, cur, advance. cbn [parse hd tl npar code].
  unfold escape_letter, char in *. cbn [In] in N.
  repeat match goal with |- context[(c =? ?k)%Z] => destruct (Z.eqb_spec c k); [exfalso; lia | ] end.
  rewrite regnode_eq. unfold regc, with_code. cbn [parse npar code groups_atom gen_atom tl_]. rewrite Nat.add_0_r, <- !app_assoc. reflexivity.
Qed.

Lemma kind_ok k neg : atom_ok (Kind k neg).
Proof.
  intros n C rest f _ _ _ _ _ F. cbn [show_atom length] in F. destruct f; [lia | ].
  exists Regexp_Model.width. split; [reflexivity | ]. split; [reflexivity | ].
  destruct k, neg; cbn [show_atom kind_char app regatom]; unfold cur, advance; cbn [parse hd tl npar code Z.eqb Pos.eqb];
    cbn -[node]; unfold regescape, cur, advance; cbn [parse hd tl npar code Z.eqb Pos.eqb]; cbn [groups_atom]; rewrite ?Nat.add_0_r; reflexivity.
Qed.

Lemma simple_ok a : match a with Bol | Eol | Any | Edge | NEdge => True | _ => False end -> atom_ok a.
Proof.
  intros A n C rest f _ _ _ _ _ F.
  destruct f; [destruct a; cbn [show_atom length] in F; try lia; destruct A | ].
  destruct a; try destruct A; cbn [show_atom app regatom]; unfold cur, advance; cbn [parse hd tl npar code];
    (eexists; split; [ | split; [ | ]]; cycle 2;
     [cbn [groups_atom]; rewrite Nat.add_0_r; cbn; rewrite ?leaf_eq; reflexivity | reflexivity | reflexivity]).
Qed.

Lemma step_char c p np X : advance (regc c (mkst (c :: p) np X)) = mkst p np (X ++ [c]).
Proof. reflexivity. Qed.
Lemma regatom_class f p np C : regatom (S f) (mkst (91%Z :: p) np C) =
  let s1 := mkst p np C in
  let '(ret, s2) := if (cur s1 =? 94)%Z then regnode ANYBUT (advance s1) else regnode ANYOF s1 in
  let first := (cur s2 =? 93)%Z || (cur s2 =? 45)%Z in
  let prev := if first then cur s2 else 91%Z in
  let s3 := if first then advance (regc (cur s2) s2) else s2 in
  let* s4 := regclass (S (length (parse s3))) prev s3 in
  let s5 := regc 0 s4 in
  if (cur s5 =? 93)%Z then Ok (ret, Regexp_Model.width, advance s5) else Err.
Proof. reflexivity. Qed.

Lemma class_ok neg l : atom_ok (Cls neg l).
Proof.
  intros n C rest f G _ _ _ _ F. cbn [show_atom length] in F. destruct f; [lia | ].
  exists Regexp_Model.width. split; [reflexivity | ]. split; [reflexivity | ].
  cbn [good_atom] in G. destruct l as [ | it l]; [discriminate G | ].
  set (s2 := mkst (flat_map show_citem (it :: l) ++ 93%Z :: rest) (Z.of_nat n) (C ++ node (if neg then ANYBUT else ANYOF) 0)).
  assert (E : regatom (S f) (mkst (show_atom (Cls neg (it :: l)) ++ rest) (Z.of_nat n) C) =
    let first := (cur s2 =? 93)%Z || (cur s2 =? 45)%Z in
    let prev := if first then cur s2 else 91%Z in
    let s3 := if first then advance (regc (cur s2) s2) else s2 in
    let* s4 := regclass (S (length (parse s3))) prev s3 in
    let s5 := regc 0 s4 in
    if (cur s5 =? 93)%Z then Ok (length C, Regexp_Model.width, advance s5) else Err).
  { cbn [show_atom app]. rewrite regatom_class. cbv zeta. unfold cur at 1. cbn [parse]. destruct neg.
    - cbn [app hd]. change (94 =? 94)%Z with true. cbn iota. unfold advance at 1. cbn [parse tl npar code].
      rewrite regnode_eq. rewrite <- app_assoc. cbn [app]. reflexivity.
    - cbn [app]. rewrite <- app_assoc. cbn [app].
      replace (hd 0%Z (flat_map show_citem (it :: l) ++ 93%Z :: rest) =? 94)%Z with false.
      + rewrite regnode_eq. reflexivity.
      + symmetry. destruct it as [c | a b]; cbn [flat_map show_citem app hd good_items] in *.
        * destruct (Z.eqb_spec c 94); [ | reflexivity]. destruct G as (_ & _ & _ & X & _). discriminate (X e eq_refl).
        * destruct (Z.eqb_spec a 94); [ | reflexivity]. destruct G as (_ & _ & _ & _ & _ & _ & X & _). discriminate (X e eq_refl). }
  rewrite E. clear E. cbv zeta. cbn [groups_atom]. rewrite Nat.add_0_r.
  unfold s2. unfold cur. cbn [parse].
  assert (fin : forall X, X = flat_map citem_chars (it :: l) ->
    (if (hd 0%Z (parse (regc 0 (mkst (93%Z :: rest) (Z.of_nat n) ((C ++ node (if neg then ANYBUT else ANYOF) 0) ++ X)))) =? 93)%Z
     then Ok (length C, Regexp_Model.width, advance (regc 0 (mkst (93%Z :: rest) (Z.of_nat n) ((C ++ node (if neg then ANYBUT else ANYOF) 0) ++ X))))
     else Err) = Ok (length C, Regexp_Model.width, mkst rest (Z.of_nat n) (C ++ gen_atom (Cls neg (it :: l)) n None))).
  { intros X ->. unfold regc, with_code, advance. cbn [parse npar code hd tl]. change (93 =? 93)%Z with true. cbn iota.
    cbn [gen_atom tl_]. rewrite <- !app_assoc. reflexivity. }
  destruct it as [c | a b]; cbn [flat_map show_citem app hd] in *.
  - destruct ((c =? 93)%Z || (c =? 45)%Z) eqn:Fi.
    + destruct G as (_ & _ & _ & _ & G). rewrite step_char. cbn [parse].
      rewrite (classes_ok neg) by (auto; rewrite app_length; cbn [length]; lia). cbn [bind]. rewrite <- app_assoc. now apply fin.
    + assert (G' : good_items false neg (CChr c :: l)).
      { cbn [good_items] in *. destruct G as (X1 & _ & _ & X2 & X3). split; [auto | split; [intros; lia | split; [intros; lia | split; [intros _ D; discriminate D | auto]]]]. }
      pose proof (classes_ok neg rest (Z.of_nat n) (CChr c :: l) (C ++ node (if neg then ANYBUT else ANYOF) 0)) as K.
      cbn [flat_map show_citem app citem_chars] in K. rewrite K; [ | exact G' | cbn [parse length flat_map show_citem app]; rewrite app_length; cbn [length]; lia ].
      cbn [bind]. now apply fin.
  - destruct ((a =? 93)%Z || (a =? 45)%Z) eqn:Fi.
    + destruct G as (_ & X1 & X2 & X3 & _ & _ & _ & G). rewrite step_char. cbn [parse].
      rewrite (range_rest b a neg) by (auto; cbn [length]; rewrite app_length; cbn [length]; lia). cbn [bind]. rewrite <- app_assoc. now apply fin.
    + assert (G' : good_items false neg (CRange a b :: l)).
      { cbn [good_items] in *. destruct G as (X1 & X2 & X3 & X4 & _ & _ & X5 & X6). repeat split; try (intros; lia); try apply X1; try apply X2; auto; intros _ D; discriminate D. }
      pose proof (classes_ok neg rest (Z.of_nat n) (CRange a b :: l) (C ++ node (if neg then ANYBUT else ANYOF) 0)) as K.
      cbn [flat_map show_citem app citem_chars] in K. rewrite K; [ | exact G' | cbn [parse length flat_map show_citem app]; rewrite app_length; cbn [length]; lia ].
      cbn [bind]. now apply fin.
Qed.

(** * Branches *)
Definition chain_code (b : branch) (C : list Z) (g : option nat -> list Z) (n : nat) : list Z :=
  match b with Nil => C ++ g None | _ => C ++ g (Some 0) ++ gen_branch b n None end.

Definition branch_ok (b : branch) : Prop := forall n rest,
  good_branch b -> fine_branch b = true -> n + groups_branch b <= 10 -> (Z.of_nat (size_branch b) < 40000)%Z ->
  stop (hd 0%Z rest) = true ->
  (forall f fl C, 4 * length (show_branch b) + 1 <= f ->
   exists fl', hasw fl' = hasw fl || width_branch b /\
   pieces f None fl (mkst (show_branch b ++ rest) (Z.of_nat n) C)
   = Ok (fl', mkst rest (Z.of_nat (n + groups_branch b)) (C ++ gen_branch b n None))) /\
  (forall f fl C g L, 4 * length (show_branch b) + 1 <= f ->
   loose g -> (forall k, length (g k) = L) -> (Z.of_nat L < 40100)%Z ->
   exists fl', hasw fl' = hasw fl || width_branch b /\
   pieces f (Some (length C)) fl (mkst (show_branch b ++ rest) (Z.of_nat n) (C ++ g None))
   = Ok (fl', mkst rest (Z.of_nat (n + groups_branch b)) (chain_code b C g n))).

Lemma nil_ok : branch_ok Nil.
Proof.
  intros n rest _ _ _ _ S. split.
  - intros f fl C F. destruct f; [cbn in F; lia | ]. exists fl. cbn [width_branch]. rewrite orb_false_r. split; [reflexivity | ].
    cbn [pieces show_branch app]. unfold cur. cbn [parse]. rewrite S. rewrite regnode_eq. cbn [snd groups_branch gen_branch].
    now rewrite Nat.add_0_r.
  - intros f fl C g L F _ _ _. destruct f; [cbn in F; lia | ]. exists fl. cbn [width_branch]. rewrite orb_false_r. split; [reflexivity | ].
    cbn [pieces show_branch app]. unfold cur. cbn [parse]. rewrite S. cbn [groups_branch chain_code]. now rewrite Nat.add_0_r.
Qed.

(** the first character of an atom starts a piece *)
Lemma atom_start a rest : good_atom a -> stop (hd 0%Z (show_atom a ++ rest)) = false /\ ismult (hd 0%Z (show_atom a ++ rest)) = false /\
  0 < length (show_atom a).
Proof.
  destruct a; cbn [show_atom app hd length]; intros G; try (split; [reflexivity | split; [reflexivity | lia]]).
  destruct G as [N G]. destruct cs as [ | c cs]; [congruence | ]. inversion G as [ | ? ? [G1 G2] ?]; subst. cbn [app hd length].
  destruct (special_meta c G1 G2) as (_ & -> & -> & _). split; [reflexivity | split; [reflexivity | lia]].
Qed.
Lemma branch_start b rest : good_branch b -> stop (hd 0%Z rest) = true -> ismult (hd 0%Z (show_branch b ++ rest)) = false.
Proof.
  intros G S. destruct b as [ | a q b]; cbn [show_branch app].
  - unfold stop, ismult in *. lia.
  - rewrite <- !app_assoc. destruct G as (G & _). now apply atom_start.
Qed.
Lemma stop_meta c : stop c = true -> meta c = true.
Proof. unfold stop, meta, ismult. lia. Qed.
Lemma ismult_meta c : ismult c = true -> meta c = true.
Proof. unfold meta. lia. Qed.
(** a run of characters ends where it should *)
Lemma follows_ok a q b rest : good_branch (Piece a q b) -> stop (hd 0%Z rest) = true ->
  follows a (show_quant q ++ show_branch b ++ rest).
Proof.
  intros (G1 & _ & G2 & G3) S. destruct a; try exact Logic.I. cbn [follows].
  destruct q as [ | h | h | h]; cbn [show_quant app hd tl] in *; try (left; split; [reflexivity | lia]).
  destruct b as [ | a' q' b']; cbn [show_branch app].
  - left. split; [now apply stop_meta | ]. intros _. unfold stop, ismult in *. lia.
  - rewrite <- !app_assoc. destruct G3 as (H1 & H2 & H3 & H4).
    destruct a'; cbn [show_atom app hd tl]; try (left; split; [reflexivity | reflexivity]).
    destruct q' as [ | h | h | h]; [destruct G2 | | | ]; (destruct cs0 as [ | c0 [ | c1 cs0]]; try discriminate H3);
      cbn [show_quant app hd tl]; right; (split; [ | reflexivity]);
      destruct H1 as [_ H1]; inversion H1 as [ | ? ? [X1 X2] ?]; subst; now apply special_meta.
Qed.

Lemma size_piece_le a q b : size_piece a q <= size_branch (Piece a q b).
Proof. cbn [size_branch]. unfold size_piece. lia. Qed.

Lemma piece_ok a q b : atom_ok a -> branch_ok b -> branch_ok (Piece a q b).
Proof.
  intros HA HB n rest G F N Sz S. pose proof (follows_ok a q b rest G S) as Fo.
  pose proof (size_piece_le a q b) as SP. unfold size_piece in SP.
  pose proof G as (G1 & G2 & G3 & G4). cbn [fine_branch] in F. apply andb_true_iff in F as [F F2]. apply andb_true_iff in F as [F1 F].
  cbn [groups_branch] in *.
  assert (SB : b = Nil \/ size_branch b <= size_branch (Piece a q b)).
  { destruct b; [now left | right]. cbn [size_branch]. lia. }
  assert (Sb : (Z.of_nat (size_branch b) < 40000)%Z) by (destruct SB as [-> | ]; [cbn; lia | lia]).
  assert (Na : n + groups_atom a <= 10) by (clear -N; lia).
  assert (Sa : (Z.of_nat (size_atom a) < 40000)%Z) by (clear -SP Sz; lia).
  assert (Z1 : (Z.of_nat (size_piece a q) < 40100)%Z) by (unfold size_piece; clear -SP Sz; lia).
  destruct (HB (n + groups_atom a) rest G4 F2 ltac:(clear -N; lia) Sb S) as [_ HB2]. clear HB.
  destruct (atom_start a (show_quant q ++ show_branch b ++ rest) G1) as (St & _ & Len).
  assert (E : show_branch (Piece a q b) ++ rest = show_atom a ++ show_quant q ++ show_branch b ++ rest).
  { cbn [show_branch]. now rewrite <- !app_assoc. }
  assert (LE : length (show_branch (Piece a q b)) = length (show_atom a) + length (show_quant q) + length (show_branch b)).
  { cbn [show_branch]. rewrite !app_length. lia. }
  assert (SM : ismult (hd 0%Z (show_branch b ++ rest)) = false) by (apply branch_start; auto).
  assert (Qu : forall fl C, simple fl = single a -> hasw fl = width_atom a ->
    exists fl', hasw fl' = quant_width a q /\
     quantify (length C) fl (mkst (show_quant q ++ show_branch b ++ rest) (Z.of_nat (n + groups_atom a)) (C ++ gen_atom a n None))
     = Ok (fl', mkst (show_branch b ++ rest) (Z.of_nat (n + groups_atom a)) (C ++ gen_piece a q n None))).
  { intros fl C Q1 Q2. apply quantify_ok; auto. }
  assert (GL : forall k, length (gen_piece a q n k) = size_piece a q) by (intros; now apply gen_piece_length).
  clear SP SB Sb Sz.
  split.
  - intros f fl C Fu. rewrite E. rewrite LE in Fu. destruct f; [clear -Fu; lia | ]. cbn [pieces]. unfold cur at 1. cbn [parse]. rewrite St.
    destruct (HA n C (show_quant q ++ show_branch b ++ rest) f G1 F1 Na Sa Fo ltac:(clear -Fu Len; lia)) as (fa & A1 & A2 & ->).
    cbn [bind]. destruct (Qu fa C A2 A1) as (fq & Q1 & ->). cbn [bind].
    destruct (HB2 f (mkfl (hasw fl || hasw fq) false (spstart fq)) C (gen_piece a q n) (size_piece a q) ltac:(clear -Fu Len; lia) (loose_piece a q n G1 F) GL Z1)
      as (fr & R1 & ->).
    exists fr. split.
    + rewrite R1. cbn [hasw width_branch]. rewrite Q1. unfold quant_width. now rewrite orb_assoc.
    + rewrite Nat.add_assoc. do 3 f_equal. destruct b; reflexivity.
  - intros f fl C g L Fu Lo HL SL. rewrite E. rewrite LE in Fu. destruct f; [clear -Fu; lia | ]. cbn [pieces]. unfold cur at 1. cbn [parse]. rewrite St.
    destruct (HA n (C ++ g None) (show_quant q ++ show_branch b ++ rest) f G1 F1 Na Sa Fo ltac:(clear -Fu Len; lia)) as (fa & A1 & A2 & ->).
    cbn [bind]. destruct (Qu fa (C ++ g None) A2 A1) as (fq & Q1 & ->). cbn [bind].
    rewrite <- app_assoc.
    erewrite (tail_loose g L _ _ C (gen_piece a q n None) (length (C ++ g None)) 0); [ | exact Lo | exact HL | rewrite app_length, HL; clear; lia | clear -SL; lia | reflexivity ].
    cbn [bind].
    replace (length (C ++ g None)) with (length (C ++ g (Some 0))) by (rewrite !app_length, !HL; reflexivity).
    rewrite app_assoc.
    destruct (HB2 f (mkfl (hasw fl || hasw fq) false (spstart fl)) (C ++ g (Some 0)) (gen_piece a q n) (size_piece a q) ltac:(clear -Fu Len; lia) (loose_piece a q n G1 F) GL Z1)
      as (fr & R1 & ->).
    exists fr. split.
    + rewrite R1. cbn [hasw width_branch]. rewrite Q1. unfold quant_width. now rewrite orb_assoc.
    + rewrite Nat.add_assoc. do 3 f_equal. unfold chain_code. destruct b; cbn [gen_branch]; rewrite <- ?app_assoc; reflexivity.
Qed.

Lemma regbranch_ok b : branch_ok b -> forall n rest f C, good_branch b -> fine_branch b = true -> n + groups_branch b <= 10 ->
  (Z.of_nat (size_branch b) < 40000)%Z -> stop (hd 0%Z rest) = true -> 4 * length (show_branch b) + 2 <= f ->
  exists fl, hasw fl = width_branch b /\
  regbranch f (mkst (show_branch b ++ rest) (Z.of_nat n) C)
  = Ok (length C, fl, mkst rest (Z.of_nat (n + groups_branch b)) (C ++ node BRANCH 0 ++ gen_branch b n None)).
Proof.
  intros HB n rest f C G F N Sz S Fu. destruct f; [lia | ]. cbn [regbranch]. rewrite regnode_eq.
  destruct (HB n rest G F N Sz S) as [H _]. destruct (H f worst (C ++ node BRANCH 0) ltac:(lia)) as (fl & H1 & ->).
  exists fl. split; [rewrite H1; reflexivity | ]. cbn [bind]. now rewrite <- app_assoc.
Qed.

(** * Alternatives *)
(** before the tails are hooked to the closing node: the last not yet linked ... *)
Fixpoint raw (r : regex) (n : nat) : list Z :=
  match r with
  | Alt1 b => node BRANCH 0 ++ gen_branch b n None
  | Alt b r => node BRANCH (3 + size_branch b) ++ gen_branch b n None ++ raw r (n + groups_branch b)
  end.
(** ... and linked *)
Fixpoint linked (r : regex) (n : nat) : list Z :=
  match r with
  | Alt1 b => node BRANCH (3 + size_branch b) ++ gen_branch b n None
  | Alt b r => node BRANCH (3 + size_branch b) ++ gen_branch b n None ++ linked r (n + groups_branch b)
  end.
Lemma raw_split r : good r -> forall n, exists A B, walk A 0 (length A) /\ raw r n = A ++ node BRANCH 0 ++ B /\
  linked r n = A ++ node BRANCH (3 + length B) ++ B /\ length A + 3 + length B = size r.
Proof.
  induction r as [b | b r IH]; intros G n.
  - exists [], (gen_branch b n None). cbn [raw linked app length size]. rewrite (gen_branch_length b G).
    split; [constructor | ]. split; [reflexivity | ]. split; [reflexivity | lia].
  - destruct G as [G1 G2]. destruct (IH G2 (n + groups_branch b)) as (A & B & W & R1 & R2 & R3).
    exists (node BRANCH (3 + size_branch b) ++ gen_branch b n None ++ A), B. cbn [raw linked size]. rewrite R1, R2.
    split; [ | split; [ | split]].
    + rewrite !app_length, node_length, (gen_branch_length b G1). eapply walk_trans with (q := 3 + size_branch b).
      * apply walk_node0; [discriminate | reflexivity | lia].
      * pose proof (walk_after (node BRANCH (3 + size_branch b) ++ gen_branch b n None) A W) as X.
        rewrite !app_length, node_length, (gen_branch_length b G1), <- app_assoc in X.
        replace (3 + (size_branch b + length A)) with (3 + size_branch b + length A) by lia. exact X.
    + now rewrite <- !app_assoc.
    + now rewrite <- !app_assoc.
    + rewrite !app_length, node_length, (gen_branch_length b G1). lia.
Qed.
Lemma linked_length r n : good r -> length (linked r n) = size r.
Proof. intros G. destruct (raw_split r G n) as (A & B & _ & _ & -> & E). rewrite !app_length, node_length. lia. Qed.

Definition closes (rest : list Z) : Prop := hd 0%Z rest = 0%Z \/ hd 0%Z rest = 41%Z.

Definition branches_ok (r : regex) : Prop := forall n rest,
  good r -> fine_regex r = true -> n + groups r <= 10 -> (Z.of_nat (size r) < 40000)%Z -> closes rest ->
  forall f fl ret C T, 4 * length (show r) + 3 <= f -> (Z.of_nat (length T) < 40000)%Z ->
  walk C ret (length C) ->
  exists fl', hasw fl' = hasw fl && width r /\
  branches f ret fl (mkst (124%Z :: show r ++ rest) (Z.of_nat n) (C ++ node BRANCH 0 ++ T))
  = Ok (fl', mkst rest (Z.of_nat (n + groups r)) (C ++ node BRANCH (3 + length T) ++ T ++ raw r n)).

Lemma closes_stop rest : closes rest -> stop (hd 0%Z rest) = true /\ (hd 0%Z rest =? 124)%Z = false.
Proof. unfold stop. intros [-> | ->]; split; reflexivity. Qed.
Lemma walk_more C suf p q : walk C p q -> walk (C ++ suf) p q.
Proof. intros W. exact (walk_app [] C suf p q W). Qed.

Lemma link_next p n ret C T X : walk C ret (length C) -> (Z.of_nat (length T) < 40000)%Z ->
  regtail ret (length (C ++ node BRANCH 0 ++ T)) (mkst p n ((C ++ node BRANCH 0 ++ T) ++ X))
  = Ok (mkst p n (C ++ node BRANCH (3 + length T) ++ T ++ X)).
Proof.
  intros W L. rewrite <- !app_assoc.
  apply (tail_walk p n ret C BRANCH (T ++ X) _ _ (3 + length T)); [discriminate | lens | lia | reflexivity | ].
  now apply walk_more.
Qed.

Lemma branches_alt1 b : branch_ok b -> branches_ok (Alt1 b).
Proof.
  intros HB n rest G F N Sz Cl f fl ret C T Fu LT W. cbn [good fine_regex groups size show width raw] in *.
  destruct (closes_stop _ Cl) as [S S']. destruct f; [lia | ]. cbn [branches]. unfold cur at 1, advance. cbn [parse hd tl npar code].
  change (124 =? 124)%Z with true. cbn iota.
  destruct (regbranch_ok b HB n rest f (C ++ node BRANCH 0 ++ T) G F N ltac:(lia) S ltac:(lia)) as (fb & B1 & ->).
  cbn [bind]. rewrite link_next by auto. cbn [bind].
  destruct f; [lia | ]. cbn [branches]. unfold cur. cbn [parse]. rewrite S'.
  eexists. split; [ | reflexivity]. cbn [hasw]. now rewrite B1.
Qed.
Lemma branches_alt b r : branch_ok b -> branches_ok r -> branches_ok (Alt b r).
Proof.
  intros HB HR n rest [G1 G2] F N Sz Cl f fl ret C T Fu LT W. cbn [fine_regex groups size show width raw] in *.
  apply andb_true_iff in F as [F1 F2]. rewrite app_length in Fu. cbn [length] in Fu.
  destruct f; [lia | ]. cbn [branches]. unfold cur at 1, advance. cbn [parse hd tl npar code].
  change (124 =? 124)%Z with true. cbn iota. rewrite <- app_assoc. cbn [app].
  destruct (regbranch_ok b HB n (124%Z :: show r ++ rest) f (C ++ node BRANCH 0 ++ T) G1 F1 ltac:(lia) ltac:(lia) eq_refl ltac:(lia)) as (fb & B1 & ->).
  cbn [bind]. rewrite link_next by auto. cbn [bind].
  replace (C ++ node BRANCH (3 + length T) ++ T ++ node BRANCH 0 ++ gen_branch b n None)
    with ((C ++ node BRANCH (3 + length T) ++ T) ++ node BRANCH 0 ++ gen_branch b n None) by norm.
  destruct (HR (n + groups_branch b) rest G2 F2 ltac:(lia) ltac:(lia) Cl f (mkfl (hasw fl && hasw fb) false (spstart fl || spstart fb)) ret
      (C ++ node BRANCH (3 + length T) ++ T) (gen_branch b n None)) as (fr & R1 & ->).
  - lia.
  - rewrite (gen_branch_length b G1). lia.
  - eapply walk_trans; [apply walk_more; exact W | ]. lens.
    apply walk_node; [discriminate | lia].
  - exists fr. split.
    + rewrite R1. cbn [hasw]. rewrite B1. now rewrite andb_assoc.
    + rewrite (gen_branch_length b G1). rewrite Nat.add_assoc. rewrite <- !app_assoc. reflexivity.
Qed.

(** hooking the tails *)
Lemma hook_ok op p np r : op <> BRANCH -> op <> BACK -> good r -> fine_regex r = true -> (Z.of_nat (size r) < 40000)%Z ->
  forall n C f, size r <= f ->
  hook f (Some (length C)) (length C + size r) (mkst p np (C ++ linked r n ++ node op 0))
  = Ok (mkst p np (C ++ gen r n ++ node op 0)).
Proof.
  intros O O' G F Sz.
  assert (last : forall C f, 2 <= f -> hook f (Some (length C)) (length C) (mkst p np (C ++ node op 0)) = Ok (mkst p np (C ++ node op 0))).
  { intros C f Hf. destruct f as [ | [ | f]]; try lia. cbn [hook]. unfold regoptail. cbn [code].
    pose proof (op_node C op 0 []) as E. rewrite app_nil_r in E. rewrite E. cbn [bind].
    destruct (Z.eqb_spec op BRANCH); [congruence | ]. cbn [bind code].
    pose proof (next_node C op 0 []) as E'. rewrite app_nil_r in E'. rewrite E'. reflexivity. }
  induction r as [b | b r IH]; intros n C f Hf; cbn [good fine_regex size linked gen] in *.
  - destruct f as [ | f]; [lia | ]. cbn [hook]. rewrite <- !app_assoc.
    erewrite optail_branch; cycle 1.
    { pose proof (tail_loose (gen_branch b n) (size_branch b) p np (C ++ node BRANCH (3 + size_branch b)) (node op 0) (length C + (3 + size_branch b)) 0
        (C ++ node BRANCH (3 + size_branch b) ++ gen_branch b n (Some 0) ++ node op 0)) as T.
      rewrite <- !app_assoc in T. replace (length (C ++ node BRANCH (3 + size_branch b))) with (length C + 3) in T by lens. apply T; [now apply loose_branch | intros; now apply gen_branch_length | lia | lia | norm]. }
    cbn [bind code]. rewrite next_node. replace (Nat.eqb (3 + size_branch b) 0) with false by reflexivity. cbn [bind].
    change (BRANCH =? BACK)%Z with false. cbn [bind].
    pose proof (last (C ++ node BRANCH (3 + size_branch b) ++ gen_branch b n (Some 0)) f ltac:(lia)) as X.
    rewrite !app_length, node_length, (gen_branch_length b G), <- !app_assoc in X.
    exact X.
  - destruct G as [G1 G2]. apply andb_true_iff in F as [F1 F2].
    destruct f as [ | f]; [lia | ]. cbn [hook]. rewrite <- !app_assoc.
    erewrite optail_branch; cycle 1.
    { pose proof (tail_loose (gen_branch b n) (size_branch b) p np (C ++ node BRANCH (3 + size_branch b)) (linked r (n + groups_branch b) ++ node op 0) (length C + (3 + size_branch b + size r)) (size r)
        (C ++ node BRANCH (3 + size_branch b) ++ gen_branch b n (Some (size r)) ++ linked r (n + groups_branch b) ++ node op 0)) as T.
      rewrite <- !app_assoc in T. replace (length (C ++ node BRANCH (3 + size_branch b))) with (length C + 3) in T by lens. apply T; [now apply loose_branch | intros; now apply gen_branch_length | lia | lia | norm]. }
    cbn [bind code]. rewrite next_node. replace (Nat.eqb (3 + size_branch b) 0) with false by reflexivity. cbn [bind].
    change (BRANCH =? BACK)%Z with false. cbn [bind].
    pose proof (IH G2 F2 ltac:(lia) (n + groups_branch b) (C ++ node BRANCH (3 + size_branch b) ++ gen_branch b n (Some (size r))) f ltac:(lia)) as X.
    rewrite !app_length, node_length, (gen_branch_length b G1), <- !app_assoc in X.
    replace (length C + (3 + size_branch b + size r)) with (length C + (3 + size_branch b) + size r) by lia.
    exact X.
Qed.

Definition first (r : regex) : branch := match r with Alt1 b | Alt b _ => b end.
Definition regex_ok (r : regex) : Prop :=
  branch_ok (first r) /\ branches_ok r /\ match r with Alt1 _ => True | Alt _ r => branches_ok r end.

(** regbranch and the loop after it *)
Lemma all_branches r : regex_ok r -> forall n rest f C ret,
  good r -> fine_regex r = true -> n + groups r <= 10 -> (Z.of_nat (size r) < 40000)%Z -> closes rest ->
  4 * length (show r) + 3 <= f ->
  exists fl s, hasw fl = width_branch (first r) /\
    regbranch f (mkst (show r ++ rest) (Z.of_nat n) C) = Ok (length C, fl, s) /\
    (exists p np X, s = mkst p np (C ++ X) /\
     forall C', walk C' ret (length C') -> length C' = length C ->
     exists fl', hasw fl' = width r /\
       branches f ret (mkfl (hasw fl) false (spstart fl)) (mkst p np (C' ++ X)) = Ok (fl', mkst rest (Z.of_nat (n + groups r)) (C' ++ raw r n))).
Proof.
  intros (HB & _ & HR) n rest f C ret G F N Sz Cl Fu. destruct r as [b | b r]; cbn [first good fine_regex groups size show width raw] in *.
  - destruct (closes_stop _ Cl) as [S S'].
    destruct (regbranch_ok b HB n rest f C G F N ltac:(lia) S ltac:(lia)) as (fb & B1 & B2).
    eexists fb, _. split; [exact B1 | ]. split; [exact B2 | ].
    eexists _, _, _. split; [reflexivity | ]. intros C' W L.
    destruct f; [lia | ]. cbn [branches]. unfold cur. cbn [parse]. rewrite S'. eexists. split; [ | reflexivity]. exact B1.
  - destruct G as [G1 G2]. apply andb_true_iff in F as [F1 F2]. rewrite app_length in Fu. cbn [length] in Fu.
    rewrite <- app_assoc. cbn [app].
    destruct (regbranch_ok b HB n (124%Z :: show r ++ rest) f C G1 F1 ltac:(lia) ltac:(lia) eq_refl ltac:(lia)) as (fb & B1 & B2).
    eexists fb, _. split; [exact B1 | ]. split; [exact B2 | ].
    eexists _, _, _. split; [reflexivity | ]. intros C' W L.
    destruct (HR (n + groups_branch b) rest G2 F2 ltac:(lia) ltac:(lia) Cl f (mkfl (hasw fb) false (spstart fb)) ret C' (gen_branch b n None)) as (fr & R1 & R2).
    + lia.
    + rewrite (gen_branch_length b G1). lia.
    + exact W.
    + exists fr. split; [rewrite R1; cbn [hasw]; now rewrite B1 | ].
      rewrite R2. rewrite (gen_branch_length b G1), Nat.add_assoc. reflexivity.
Qed.

(** closing *)
Lemma closing op p np r n ret C : op <> BRANCH -> op <> BACK -> good r -> fine_regex r = true -> (Z.of_nat (size r) < 40000)%Z ->
  walk C ret (length C) ->
  regtail ret (length (C ++ raw r n)) (mkst p np ((C ++ raw r n) ++ node op 0)) = Ok (mkst p np (C ++ linked r n ++ node op 0)) /\
  length (C ++ raw r n) = length C + size r.
Proof.
  intros O O' G F Sz W. destruct (raw_split r G n) as (A & B & WA & R1 & R2 & R3). rewrite R1, R2.
  split; [ | lens].
  replace ((C ++ A ++ node BRANCH 0 ++ B) ++ node op 0) with ((C ++ A) ++ node BRANCH 0 ++ B ++ node op 0) by norm.
  apply (tail_walk p np ret (C ++ A) BRANCH (B ++ node op 0) _ _ (3 + length B)); [discriminate | lens | lia | norm | ].
  apply walk_more. eapply walk_trans; [apply walk_more; exact W | ].
  rewrite app_length. pose proof (walk_app C A [] 0 (length A) WA) as X. now rewrite Nat.add_0_r, app_nil_r in X.
Qed.

Lemma regatom_group f p np C : regatom (S f) (mkst (40%Z :: p) np C) =
  let* (ret, fl, s2) := reg f true (mkst p np C) in Ok (ret, mkfl (hasw fl) false (spstart fl), s2).
Proof. reflexivity. Qed.
Lemma reg_group f p np C : (NSUBEXP <=? np)%Z = false -> reg (S f) true (mkst p np C) =
  let* (br, fl, s) := regbranch f (mkst p (np + 1) (C ++ node (OPEN + np) 0)) in
  let* s := regtail (length C) br s in
  let* (fl, s) := branches f (length C) (mkfl (hasw fl) false (spstart fl)) s in
  let '(ender, s) := regnode (CLOSE + np) s in
  let* s := regtail (length C) ender s in
  let* s := hook (S (length (code s))) (Some (length C)) ender s in
  if (cur s =? 41)%Z then Ok (length C, fl, advance s) else Err.
Proof. intros H. cbn [reg npar]. rewrite H. reflexivity. Qed.
Lemma grp_ok r : regex_ok r -> atom_ok (Grp r).
Proof.
  intros HR n C rest f G F N Sz _ Fu. cbn [good_atom fine_atom groups_atom size_atom show_atom gen_atom width_atom single] in *.
  cbn [length] in Fu. rewrite app_length in Fu. cbn [length] in Fu.
  destruct f; [lia | ]. cbn [app]. rewrite regatom_group.
  destruct f; [lia | ]. rewrite reg_group by (unfold NSUBEXP; lia). rewrite <- app_assoc. cbn [app].
  replace (Z.of_nat n + 1)%Z with (Z.of_nat (S n)) by lia.
  set (o := (OPEN + Z.of_nat n)%Z). set (e := (CLOSE + Z.of_nat n)%Z).
  assert (Oo : o <> BACK) by (unfold o, OPEN, BACK; lia).
  assert (Oe : e <> BACK) by (unfold e, CLOSE, BACK; lia). assert (Ob : e <> BRANCH) by (unfold e, CLOSE, BRANCH; lia).
  assert (Cl : closes (41%Z :: rest)) by (right; reflexivity).
  destruct (all_branches r HR (S n) (41%Z :: rest) f (C ++ node o 0) (length C) G F ltac:(lia) ltac:(lia) Cl ltac:(lia))
    as (fb & s & _ & -> & p & np & X & -> & HX).
  cbn [bind]. rewrite <- app_assoc.
  erewrite (tail_node p np C o X _ _ 3); [ | exact Oo | lens | lia | reflexivity ].
  cbn [bind]. destruct (HX (C ++ node o 3)) as (fr & R1 & R2).
  { rewrite app_length, node_length. pose proof (walk_node C o 3 [] Oo ltac:(lia)) as W. now rewrite app_nil_r in W. }
  { lens. }
  rewrite app_assoc, R2. cbn [bind]. rewrite regnode_eq.
  destruct (closing e (41%Z :: rest) (Z.of_nat (S n + groups r)) r (S n) (length C) (C ++ node o 3) Ob Oe G F ltac:(lia)) as [E1 E2].
  { rewrite app_length, node_length. pose proof (walk_node C o 3 [] Oo ltac:(lia)) as W. now rewrite app_nil_r in W. }
  rewrite E1. cbn [bind code]. rewrite E2. cbn [hook]. rewrite <- !app_assoc. unfold regoptail at 1. cbn [code]. rewrite op_node.
  cbn [bind]. replace (o =? BRANCH)%Z with false by (unfold o, OPEN, BRANCH; lia). cbn [bind code]. rewrite next_node.
  cbn [Nat.eqb]. replace (o =? BACK)%Z with false by lia. cbn [bind].
  pose proof (hook_ok e (41%Z :: rest) (Z.of_nat (S n + groups r)) r Ob Oe G F ltac:(lia) (S n) (C ++ node o 3)) as H.
  rewrite <- !app_assoc, !app_length, node_length in H. replace (length (C ++ node o 3)) with (length C + 3) by lens. rewrite H.
  - cbn [bind]. unfold cur, advance. cbn [parse hd tl npar code]. change (41 =? 41)%Z with true. cbn iota. cbn [bind].
    eexists. split; [ | split; [ | ]]; cycle 2.
    + do 2 f_equal. f_equal. lia.
    + exact R1.
    + reflexivity.
  - rewrite !app_length, !node_length, linked_length by auto. lia.
Qed.

Theorem compiles : (forall a, atom_ok a) /\ (forall r, regex_ok r) /\ (forall b, branch_ok b).
Proof.
  apply re_mind; try (intros; apply simple_ok; exact Logic.I).
  - apply lit_ok.
  - apply esc_ok.
  - apply class_ok.
  - apply kind_ok.
  - apply grp_ok.
  - intros b HB. split; [exact HB | ]. split; [now apply branches_alt1 | exact Logic.I].
  - intros b HB r (H1 & H2 & H3). split; [exact HB | ]. split; [now apply branches_alt | exact H2].
  - apply nil_ok.
  - intros a HA q b HB. now apply piece_ok.
Qed.

Theorem reg_ok r : good r -> fine_regex r = true -> groups r <= 9 -> (Z.of_nat (size r) < 40000)%Z -> forall f, 4 * length (show r) + 4 <= f ->
  exists fl s, reg f false (mkst (show r) 1 [MAGIC]) = Ok (1, fl, s) /\ code s = MAGIC :: gen r 1 ++ node END 0.
Proof.
  intros G F N Sz f Fu. destruct f; [lia | ]. cbn [reg andb]. cbn iota.
  assert (Cl : closes []) by (left; reflexivity).
  destruct (all_branches r (proj1 (proj2 compiles) r) 1 [] f [MAGIC] 1 G F ltac:(lia) Sz Cl ltac:(lia))
    as (fb & s & _ & E & p & np & X & -> & HX).
  rewrite app_nil_r in E. cbn [length] in E. change (Z.of_nat 1) with 1%Z in E. rewrite E. cbn [bind].
  destruct (HX [MAGIC]) as (fr & _ & R2); [apply walk_end | reflexivity | ].
  rewrite R2. cbn [bind]. rewrite regnode_eq.
  destruct (closing END [] (Z.of_nat (1 + groups r)) r 1 1 [MAGIC]) as [E1 E2]; auto; try discriminate; [apply walk_end | ].
  rewrite E1. cbn [bind]. rewrite E2. cbn [code].
  pose proof (hook_ok END [] (Z.of_nat (1 + groups r)) r) as H. rewrite (H ltac:(discriminate) ltac:(discriminate) G F Sz 1 [MAGIC]).
  - cbn [bind]. unfold cur. cbn [parse hd]. change (0 =? 0)%Z with true. cbn iota. eexists _, _. split; reflexivity.
  - rewrite !app_length, linked_length by auto. cbn [length]. lia.
Qed.
