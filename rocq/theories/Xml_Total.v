(** Reading always ends; what is not well nested is refused; what is printed
    is read back. *)
From Coq Require Import List ZArith Bool Lia ZifyBool.
From Verif Require Import Regexp_Model Regexp_Spec Find_Model Xml_Model Xml_Spec Xml_Entities Xml_Proofs.
Import ListNotations.
Open Scope Z_scope.

(** * Reading ends *)
Definition suf (s t : list Z) : Prop := exists a, t = a ++ s.
Lemma suf_refl s : suf s s.
Proof. now exists []. Qed.
Lemma suf_trans x y z : suf x y -> suf y z -> suf x z.
Proof. intros (a & ->) (b & ->). exists (b ++ a). now rewrite app_assoc. Qed.
Lemma suf_len s t : suf s t -> (length s <= length t)%nat.
Proof. intros (a & ->). rewrite app_length. lia. Qed.
Lemma suf_tl s t : suf s t -> suf (tl s) t.
Proof. intros H. eapply suf_trans; [ | exact H]. destruct s as [ | c s]; [apply suf_refl | now exists [c]]. Qed.
Lemma suf_cons c s t : suf s t -> suf s (c :: t).
Proof. intros (a & ->). now exists (c :: a). Qed.
Lemma suf_decodes g s t : suf s t -> decodes g t -> decodes g s.
Proof. intros (a & ->) D. refine (decodes_sub g s _ _ D). exists a, []. now rewrite app_nil_r. Qed.
Lemma eat_suf st : suf (eat_whitespace st) st.
Proof. induction st as [ | c st IH]; [apply suf_refl | ]. cbn [eat_whitespace]. destruct (memq c whitespace_chars); [now apply suf_cons | apply suf_refl]. Qed.
Lemma token_suf st : exists n st', read_token st = (n, st') /\ suf st' st.
Proof.
  unfold read_token. destruct (read_split (eat_whitespace st) token_endings) as (s & st' & E & Es & _ & _). exists s, st'. split; [exact E | ].
  eapply suf_trans; [ | apply eat_suf]. rewrite Es. now exists s.
Qed.

Section Total.
  Variable g : list Z -> res (list Z).
  Lemma quoted_total st : decodes g st -> exists v st', read_quoted_token g st = Ok (v, st') /\ suf st' st.
  Proof.
    intros D. unfold read_quoted_token. destruct st as [ | c st].
    - exists [], []. split; [reflexivity | apply suf_refl].
    - destruct (isspace c); [exists [], (c :: st); split; [reflexivity | apply suf_refl] | ].
      destruct (negb (memq c [34; 39])).
      + destruct (read_split (c :: st) token_endings) as (s & st' & E & Es & _ & _). exists s, st'. rewrite E. split; [reflexivity | ]. rewrite Es. now exists s.
      + destruct (read_split st [c]) as (s & st' & E & Es & _ & _). rewrite E.
        destruct (D s) as (v & Ev & _); [exists [c], st'; cbn; congruence | ]. rewrite Ev. exists v, (tl st'). split; [reflexivity | ].
        apply suf_tl. rewrite Es. now exists (c :: s).
  Qed.
  Lemma params_total : forall n st acc, (length st < n)%nat -> decodes g st ->
    read_params g n st acc = Err \/ exists ps st', read_params g n st acc = Ok (ps, st') /\ suf st' st.
  Proof.
    induction n as [ | n IH]; intros st acc L D; [lia | ]. cbn [read_params].
    assert (S1 := eat_suf st). set (s1 := eat_whitespace st) in *.
    destruct (at_char s1 63 || at_char s1 47 || at_char s1 62); [right; eauto | ].
    destruct (token_suf s1) as (nm & s2 & -> & S2). assert (S3 := eat_suf s2). set (s3 := eat_whitespace s2) in *.
    destruct (at_char s3 61) eqn:A; cbn [negb]; [ | now left]. destruct s3 as [ | c s3]; [discriminate | ]. cbn [tl].
    assert (S4 := eat_suf s3). set (s4 := eat_whitespace s3) in *.
    assert (T : suf (c :: s3) st) by (eapply suf_trans; [exact S3 | eapply suf_trans; [exact S2 | exact S1]]).
    assert (T4 : suf s4 st) by (eapply suf_trans; [exact S4 | ]; eapply suf_trans; [ | exact T]; now exists [c]).
    destruct (quoted_total s4 (suf_decodes g _ _ T4 D)) as (v & s5 & -> & S5). cbn [bind].
    assert (T5 : suf s5 st) by (eapply suf_trans; eauto).
    destruct (IH s5 ((nm, v) :: acc)) as [E | (ps & st' & E & S')].
    - assert (X1 := suf_len _ _ S5). assert (X2 := suf_len _ _ S4). assert (X3 := suf_len _ _ T). cbn [length] in X3. lia.
    - exact (suf_decodes g _ _ T5 D).
    - now left.
    - right. exists ps, st'. split; [exact E | ]. eapply suf_trans; eauto.
  Qed.

  Definition item_ends (n : nat) (st : list Z) : Prop :=
    read_item g n st = Err \/ exists r st', read_item g n st = Ok (r, st') /\ suf st' st /\ (st = [] /\ r = Nothing \/ (length st' < length st)%nat /\ r <> Nothing).
  Lemma total : forall n,
    (forall st, (2 * length st < n)%nat -> decodes g st -> item_ends n st) /\
    (forall st items, (2 * length st + 1 < n)%nat -> decodes g st ->
       read_items g n st items = Err \/ exists r its st', read_items g n st items = Ok (r, its, st') /\ suf st' st).
  Proof.
    induction n as [ | n [IH1 IH2]]; [split; intros; lia | ]. split.
    - intros st L D. unfold item_ends. rewrite read_item_S. destruct st as [ | c st1].
      { right. exists Nothing, []. split; [reflexivity | ]. split; [apply suf_refl | now left]. }
      cbn [length] in L. assert (D1 : decodes g st1) by (apply (suf_decodes g st1 (c :: st1)); [now exists [c] | exact D]).
      assert (Fin : forall s, suf s st1 -> suf s (c :: st1) /\ (length s < length (c :: st1))%nat).
      { intros s H. split; [now apply suf_cons | ]. apply suf_len in H. cbn [length]. lia. }
      destruct (c =? 60) eqn:E60.
      + assert (T1 := suf_tl _ _ (suf_refl st1)). assert (DT := suf_decodes g _ _ T1 D1).
        destruct (at_char st1 47).
        { unfold read_end. destruct (token_suf (eat_whitespace (tl st1))) as (nm & s2 & -> & S2). destruct (at_char (eat_whitespace s2) 62); cbn [negb]; [ | now left].
          right. exists (Ended nm), (tl (eat_whitespace s2)). split; [reflexivity | ].
          destruct (Fin (tl (eat_whitespace s2))) as [F1 F2]; [ | split; [exact F1 | right; split; [exact F2 | discriminate]]].
          apply suf_tl. eapply suf_trans; [apply eat_suf | ]. eapply suf_trans; [exact S2 | ]. eapply suf_trans; [apply eat_suf | exact T1]. }
        destruct (at_char st1 63).
        { unfold read_question_body. destruct (token_suf (tl st1)) as (nm & s2 & -> & S2). assert (S2' := suf_trans _ _ _ S2 T1).
          destruct (params_total n s2 []) as [-> | (ps & s3 & -> & S3)]; [ | exact (suf_decodes g _ _ S2' D1) | now left | ].
          { apply suf_len in S2'. lia. }
          cbn [bind]. destruct (at_char (tl s3) 62); cbn [negb]; [ | now left]. right. eexists _, (tl (tl s3)). split; [reflexivity | ].
          destruct (Fin (tl (tl s3))) as [F1 F2]; [ | split; [exact F1 | right; split; [exact F2 | discriminate]]].
          apply suf_tl, suf_tl. eapply suf_trans; eauto. }
        destruct (at_char st1 33).
        { unfold read_exclam_body. destruct (read_split (tl st1) [62]) as (s & s2 & -> & Es & _ & _).
          destruct (DT s) as (v & -> & _); [exists [], s2; exact Es | ]. cbn [bind]. destruct (at_char s2 62); cbn [negb]; [ | now left]. right.
          eexists _, (tl s2). split; [reflexivity | ]. destruct (Fin (tl s2)) as [F1 F2]; [ | split; [exact F1 | right; split; [exact F2 | discriminate]]].
          apply suf_tl. eapply suf_trans; [ | exact T1]. rewrite Es. now exists s. }
        destruct (token_suf st1) as (nm & s2 & -> & S2).
        destruct (params_total n s2 []) as [-> | (ps & s3 & -> & S3)]; [ | exact (suf_decodes g _ _ S2 D1) | now left | ].
        { apply suf_len in S2. lia. }
        cbn [bind]. assert (S3' := suf_trans _ _ _ S3 S2). destruct (at_char s3 47).
        * destruct (at_char (tl s3) 62); cbn [negb]; [ | now left]. right. eexists _, (tl (tl s3)). split; [reflexivity | ].
          destruct (Fin (tl (tl s3))) as [F1 F2]; [ | split; [exact F1 | right; split; [exact F2 | discriminate]]]. apply suf_tl, suf_tl. exact S3'.
        * destruct (at_char s3 62); cbn [negb]; [ | now left]. assert (S4 := suf_tl _ _ S3').
          destruct (IH2 (tl s3) []) as [-> | (r & its & s5 & -> & S5)]; [ | exact (suf_decodes g _ _ S4 D1) | now left | ].
          { apply suf_len in S4. lia. }
          cbn [bind]. destruct (same_name r nm); cbn [negb]; [ | now left]. right. eexists _, s5. split; [reflexivity | ].
          destruct (Fin s5) as [F1 F2]; [eapply suf_trans; eauto | split; [exact F1 | right; split; [exact F2 | discriminate]]].
      + cbn [read_string_item]. assert (M : memq c [60] = false) by (unfold memq; cbn [existsb]; rewrite E60; reflexivity). rewrite M.
        destruct (read_split st1 [60]) as (s & s2 & -> & Es & _ & _). destruct (D (c :: s)) as (v & -> & _); [exists [], s2; cbn; congruence | ]. cbn [bind]. right.
        eexists _, s2. split; [reflexivity | ]. destruct (Fin s2) as [F1 F2]; [rewrite Es; now exists s | split; [exact F1 | right; split; [exact F2 | discriminate]]].
    - intros st items L D. rewrite read_items_S. destruct st as [ | c st]; [right; exists None, items, []; split; [reflexivity | apply suf_refl] | ].
      destruct (IH1 (c :: st) ltac:(lia) D) as [-> | (r & st' & -> & S1 & H)]; [now left | ]. cbn [bind].
      destruct H as [[H _] | [Ln Nr]]; [discriminate | ]. destruct r as [i | | nm]; [ | congruence | ].
      + destruct (IH2 st' (i :: items)) as [-> | (r & its & s5 & -> & S5)]; [cbn [length] in *; lia | exact (suf_decodes g _ _ S1 D) | now left | ].
        right. exists r, its, s5. split; [reflexivity | ]. eapply suf_trans; eauto.
      + right. exists (Some nm), items, st'. split; [reflexivity | exact S1].
  Qed.

  (** ** Bodies that do not end as they should *)
  Lemma body_then l u : body_written l u -> decodes g u -> forall rest, hd 0 rest = 60 \/ rest = [] -> forall n acc, (2 * length u + 1 < n)%nat ->
    exists n', read_items g n (u ++ rest) acc = read_items g (S n') rest (rev l ++ acc) /\ (n <= S n' + 2 * length u)%nat.
  Proof.
    induction 1 as [ | i u l t W S Bw IH]; intros D rest R n acc L.
    - destruct n as [ | n]; [lia | ]. exists n. split; [reflexivity | cbn; lia].
    - destruct n as [ | n]; [lia | ]. assert (Lu := written_len i u W). rewrite app_length in L.
      assert (M : may_follow i (t ++ rest)).
      { intros Ti. specialize (S Ti). destruct Bw as [ | i' u' l' t' W' S' Bw']; [cbn [app]; tauto | ].
        assert (Ni : ~ is_text i') by exact S. destruct (written_start i' u' W' Ni) as (x & ->). now right. }
      assert (Du : decodes g u) by (refine (decodes_sub g u _ _ D); exists [], t; reflexivity).
      assert (Dt : decodes g t) by (refine (decodes_sub g t _ _ D); exists u, []; now rewrite app_nil_r).
      assert (E := proj1 (read_written_both g) i u W Du n (t ++ rest) M ltac:(lia)).
      destruct (IH Dt rest R n (i :: acc) ltac:(lia)) as (n' & E' & L'). exists n'.
      split; [ | rewrite app_length; lia]. rewrite <- app_assoc, read_items_S. rewrite E.
      destruct (u ++ t ++ rest) as [ | c st] eqn:X; [apply app_eq_nil in X as [-> _]; cbn in Lu; lia | ]. cbn [bind]. rewrite E'. cbn [rev]. now rewrite <- app_assoc.
  Qed.
End Total.

Lemma unclosed_err g nm ps t body u rest n : elem_name nm -> params_written ps t -> after_name t -> body_written body u -> decodes g (60 :: nm ++ t ++ 62 :: u) ->
  (2 * (length nm + length t + length u) + 6 < n)%nat ->
  (rest = [] /\ nm <> [110; 105; 108] \/ exists w nm' w' r, rest = [60; 47] ++ w ++ nm' ++ w' ++ 62 :: r /\ Forall blank w /\ good_name nm' /\ Forall blank w' /\ after_name w' /\ nm' <> nm) ->
  read_item g n (60 :: nm ++ t ++ 62 :: u ++ rest) = Err.
Proof.
  intros N P A Bw D L R. destruct n as [ | n]; [lia | ].
  assert (Dt : decodes g t) by (refine (decodes_sub g t _ _ D); exists (60 :: nm), (62 :: u); reflexivity).
  assert (Du : decodes g u) by (refine (decodes_sub g u _ _ D); exists (60 :: nm ++ t ++ [62]), []; rewrite app_nil_r; lapp).
  rewrite (tag_start g nm ps t n (62 :: u ++ rest) N P A Dt ltac:(lia)); [ | cbn; lia].
  cbn [at_char tl]. change (62 =? 47) with false. change (negb (62 =? 62)) with false. cbn iota.
  assert (R0 : hd 0 rest = 60 \/ rest = []) by (destruct R as [[-> _] | (w & nm' & w' & r & -> & _)]; [now right | now left]).
  destruct (body_then g body u Bw Du rest R0 n [] ltac:(lia)) as (n' & -> & L').
  rewrite read_items_S. destruct R as [[-> Nil] | (w & nm' & w' & r & -> & B & N' & B' & A' & Ne)].
  - cbn [bind]. unfold same_name. destruct (list_eq_dec Z.eq_dec [110; 105; 108] nm); [congruence | reflexivity].
  - cbn [app]. destruct n' as [ | n']; [lia | ]. rewrite read_item_S. change (60 =? 60) with true. cbn iota. cbn [at_char tl]. change (47 =? 47) with true. cbn iota.
    rewrite read_end_ok by assumption. cbn [bind]. unfold same_name. destruct (list_eq_dec Z.eq_dec nm' nm); [congruence | reflexivity].
Qed.

(** * Printing *)
Fixpoint strings (i : xml) : list (list Z) :=
  match i with
  | Text s => [s]
  | Bang _ => []
  | Elem _ ps body => map snd ps ++ flat_map strings body
  end.
Scheme plain_mut := Minimality for plain Sort Prop
  with plain_list_mut := Minimality for plain_list Sort Prop.
Lemma harmless_stands s : harmless s -> stands s s.
Proof.
  induction 1 as [ | c s [C N] H IH]; constructor; [ | exact IH]. intros e v _ (u & E). injection E as -> _. apply N. cbn. lia.
Qed.
Lemma harmless_put s : harmless s -> flat_map put_for s = s.
Proof. induction 1 as [ | c s [C N] H IH]; [reflexivity | ]. cbn [flat_map]. rewrite IH, put_same; [reflexivity | ]. unfold marked_char. cbn in N. lia. Qed.
Lemma harmless_chars s : harmless s -> Forall char s.
Proof. apply Forall_impl. tauto. Qed.

Section Printing.
  Variable p : list Z -> res (list Z).
  Variable other : res (list Z).
  Definition print_list := fix print_items (l : list xml) : res (list Z) :=
      match l with
      | [] => Ok []
      | x :: l => let* a := print_item p other x in let* b := print_items l in Ok (a ++ b)
      end.
  Definition puts (l : list (list Z)) : Prop := forall s, In s l -> p s = Ok (flat_map put_for s).
  Lemma params_printed ps : harmless_params ps -> puts (map snd ps) -> exists t, print_params p ps = Ok t /\ params_written ps t /\ after_name t /\ (ps <> [] -> t <> []) /\ Forall char t.
  Proof.
    induction 1 as [ | [n v] ps (N & Cn & Hv) H IH]; intros Pu.
    - exists []. repeat split; auto; try constructor; constructor.
    - cbn [fst snd] in *. destruct IH as (t & E & W & A & _ & Ct); [intros s I; apply Pu; now right | ].
      exists (32 :: n ++ [61; 34] ++ v ++ [34] ++ t). cbn [print_params]. rewrite (Pu v (or_introl eq_refl)), (harmless_put v Hv), E. cbn [bind]. split; [reflexivity | ].
      split; [ | split; [right; now left | split; [discriminate | ]]].
      + assert (X : params_written ((n, v) :: ps) ([32] ++ n ++ [] ++ 61 :: [] ++ 34 :: v ++ 34 :: t)).
        { apply params_cons; auto; try (constructor; fail).
          - repeat constructor.
          - now left.
          - now apply harmless_stands.
          - intros I. apply (proj1 (Forall_forall _ _) Hv) in I as [_ I]. apply I. cbn. lia. }
        exact X.
      + constructor; [unfold char; lia | ]. apply Forall_app. split; [exact Cn | ]. constructor; [unfold char; lia | ]. constructor; [unfold char; lia | ].
        apply Forall_app. split; [now apply harmless_chars | ]. constructor; [unfold char; lia | exact Ct].
  Qed.
  Lemma print_Elem name params body : print_item p other (Elem name params body) =
        (if list_eq_dec Z.eq_dec name [33] then print_bang other
        else
          let* q := print_params p params in
          let start := 60 :: name ++ q in
          if at_char name 63 then Ok (start ++ [63; 62])
          else match body with
               | [] => Ok (start ++ [47; 62])
               | _ :: _ => let* b := print_list body in Ok (start ++ [62] ++ b ++ [60; 47] ++ name ++ [62])
               end).
  Proof. reflexivity. Qed.
  Lemma printed : (forall i, plain i -> puts (strings i) -> exists t, print_item p other i = Ok t /\ written i t /\ Forall char t) /\
    (forall l, plain_list l -> puts (flat_map strings l) -> exists t, print_list l = Ok t /\ body_written l t /\ Forall char t).
  Proof.
    set (P := fun i => puts (strings i) -> exists t, print_item p other i = Ok t /\ written i t /\ Forall char t).
    set (Q := fun l => puts (flat_map strings l) -> exists t, print_list l = Ok t /\ body_written l t /\ Forall char t).
    assert (C1 : forall s, harmless s -> s <> [] -> P (Text s)).
    { intros s H N Pu. exists s. cbn [print_item]. rewrite (Pu s (or_introl eq_refl)), (harmless_put s H). split; [reflexivity | ].
      split; [ | now apply harmless_chars]. apply written_text; [now apply harmless_stands | exact N | ].
      intros I. apply (proj1 (Forall_forall _ _) H) in I as [_ I]. apply I. now left. }
    assert (C2 : forall n ps body, elem_name n -> Forall char n -> harmless_params ps -> plain_list body -> Q body -> P (Elem n ps body)).
    { intros n ps body N Cn H Pl IH Pu. cbn [strings] in Pu.
      destruct (params_printed ps H) as (t & E & W & A & _ & Ct); [intros s I; apply Pu, in_or_app; now left | ].
      destruct IH as (b & Eb & Wb & Cb); [intros s I; apply Pu, in_or_app; now right | ].
      rewrite print_Elem, E. cbn [bind]. destruct N as (G & N33 & N63).
      destruct (list_eq_dec Z.eq_dec n [33]) as [-> | _]; [cbn in N33; lia | ].
      assert (Eq : at_char n 63 = false) by (destruct n as [ | c n]; [reflexivity | cbn in N63 |- *; lia]). rewrite Eq.
      destruct body as [ | x body].
      - eexists. split; [reflexivity | ]. cbn [app]. rewrite <- app_assoc. split; [apply written_empty; repeat split; auto; apply G | ].
        constructor; [unfold char; lia | ]. apply Forall_app. split; [exact Cn | ]. apply Forall_app. split; [exact Ct | repeat constructor; lia].
      - rewrite Eb. cbn [bind]. eexists. split; [reflexivity | ].
        replace ((60 :: n ++ t) ++ [62] ++ b ++ [60; 47] ++ n ++ [62]) with (60 :: n ++ t ++ 62 :: b ++ [60; 47] ++ [] ++ n ++ [] ++ [62]) by lapp. split.
        + apply written_elem; auto; try (constructor; fail); [repeat split; auto; apply G | now left].
        + constructor; [unfold char; lia | ]. apply Forall_app. split; [exact Cn | ]. apply Forall_app. split; [exact Ct | ]. constructor; [unfold char; lia | ].
          apply Forall_app. split; [exact Cb | ]. cbn [app]. do 2 (constructor; [unfold char; lia | ]). apply Forall_app. split; [exact Cn | repeat constructor; lia]. }
    assert (C3 : forall n ps, good_name n -> Forall char n -> harmless_params ps -> ps <> [] -> P (Elem (63 :: n) ps [])).
    { intros n ps G Cn H Np Pu. cbn [strings] in Pu.
      destruct (params_printed ps H) as (t & E & W & A & Nt & Ct); [intros s I; apply Pu, in_or_app; now left | ].
      rewrite print_Elem, E. cbn [bind]. destruct (list_eq_dec Z.eq_dec (63 :: n) [33]) as [X | _]; [discriminate | ].
      change (at_char (63 :: n) 63) with true. cbn iota. eexists. split; [reflexivity | ].
      replace ((60 :: (63 :: n) ++ t) ++ [63; 62]) with (60 :: 63 :: n ++ t ++ [63; 62]) by lapp. split.
      - apply written_question; auto.
      - do 2 (constructor; [unfold char; lia | ]). apply Forall_app. split; [exact Cn | ]. apply Forall_app. split; [exact Ct | repeat constructor; lia]. }
    assert (C4 : Q []) by (intros _; exists []; repeat split; constructor).
    assert (C5 : forall i l, plain i -> P i -> (is_text i -> ~ starts_text l) -> plain_list l -> Q l -> Q (i :: l)).
    { intros i l _ IHi S _ IHl Pu. cbn [flat_map] in Pu.
      destruct IHi as (a & Ea & Wa & Ca); [intros s I; apply Pu, in_or_app; now left | ].
      destruct IHl as (b & Eb & Wb & Cb); [intros s I; apply Pu, in_or_app; now right | ].
      exists (a ++ b). split; [change (print_list (i :: l)) with (let* a := print_item p other i in let* b := print_list l in Ok (a ++ b)); now rewrite Ea, Eb | ].
      split; [now constructor | apply Forall_app; now split]. }
    split; intros x H.
    - exact (plain_mut P Q C1 C2 C3 C4 C5 x H).
    - exact (plain_list_mut P Q C1 C2 C3 C4 C5 x H).
  Qed.
End Printing.
Lemma plain_strings : (forall i, plain i -> Forall (Forall char) (strings i)) /\ (forall l, plain_list l -> Forall (Forall char) (flat_map strings l)).
Proof.
  set (P := fun i => Forall (Forall char) (strings i)). set (Q := fun l => Forall (Forall char) (flat_map strings l)).
  assert (X : forall ps, harmless_params ps -> Forall (Forall char) (map snd ps)).
  { intros ps H. apply Forall_map. revert H. apply Forall_impl. intros a (_ & _ & H). now apply harmless_chars. }
  assert (C1 : forall s, harmless s -> s <> [] -> P (Text s)) by (intros s H _; constructor; [now apply harmless_chars | constructor]).
  assert (C2 : forall n ps body, elem_name n -> Forall char n -> harmless_params ps -> plain_list body -> Q body -> P (Elem n ps body)).
  { intros n ps body _ _ H _ IH. apply Forall_app. split; [now apply X | exact IH]. }
  assert (C3 : forall n ps, good_name n -> Forall char n -> harmless_params ps -> ps <> [] -> P (Elem (63 :: n) ps [])).
  { intros n ps _ _ H _. apply Forall_app. split; [now apply X | constructor]. }
  assert (C4 : Q []) by constructor.
  assert (C5 : forall i l, plain i -> P i -> (is_text i -> ~ starts_text l) -> plain_list l -> Q l -> Q (i :: l)).
  { intros i l _ A _ _ B. apply Forall_app. now split. }
  split; intros x H.
  - exact (plain_mut P Q C1 C2 C3 C4 C5 x H).
  - exact (plain_list_mut P Q C1 C2 C3 C4 C5 x H).
Qed.
