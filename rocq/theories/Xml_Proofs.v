(** The XML reader reads what the text says. *)
From Coq Require Import List ZArith Bool Lia ZifyBool.
From Verif Require Import Regexp_Model Regexp_Spec Find_Model Xml_Model Xml_Spec Xml_Entities.
Import ListNotations.
Open Scope Z_scope.

Ltac lapp := repeat first [rewrite <- app_assoc | progress cbn [app]]; reflexivity.

(** * Characters *)
Lemma memq_in c l : memq c l = true <-> In c l.
Proof. unfold memq. rewrite existsb_exists. split; [intros (x & I & E); apply Z.eqb_eq in E; congruence | intros I; exists c; split; [exact I | apply Z.eqb_refl]]. Qed.
Lemma memq_not c l : memq c l = false <-> ~ In c l.
Proof. rewrite <- memq_in. destruct (memq c l); split; congruence. Qed.
Lemma infix_mid a s b : infix s (a ++ s ++ b).
Proof. now exists a, b. Qed.
Lemma infix_trans x y z : infix x y -> infix y z -> infix x z.
Proof. intros (a & b & ->) (c & d & ->). exists (c ++ a), (b ++ d). now rewrite <- !app_assoc. Qed.
Lemma decodes_sub g s t : infix s t -> decodes g t -> decodes g s.
Proof. intros I D x J. apply D. eapply infix_trans; eauto. Qed.
Lemma decode_this g t u s : decodes g t -> infix u t -> stands u s -> g u = Ok s.
Proof. intros D I St. destruct (D u I) as (v & E & St'). now rewrite (stands_fun _ _ St _ St'). Qed.

(** * The pieces of the reader *)
Lemma eat_blanks w s : Forall blank w -> eat_whitespace (w ++ s) = eat_whitespace s.
Proof. induction 1 as [ | c w B F IH]; [reflexivity | ]. cbn [app eat_whitespace]. rewrite (proj2 (memq_in c whitespace_chars) B). exact IH. Qed.
Lemma eat_stop c s : ~ blank c -> eat_whitespace (c :: s) = c :: s.
Proof. intros B. cbn [eat_whitespace]. now rewrite (proj2 (memq_not c whitespace_chars) B). Qed.
Lemma read_until u rest endings : Forall (fun c => ~ In c endings) u -> rest = [] \/ In (hd 0 rest) endings ->
  read_string_item (u ++ rest) endings = (u, rest).
Proof.
  intros F R. induction F as [ | c u N F IH]; cbn [app read_string_item].
  - destruct rest as [ | c rest]; [reflexivity | ]. destruct R as [R | R]; [discriminate | ]. cbn [hd] in R. cbn [read_string_item]. now rewrite (proj2 (memq_in c endings) R).
  - rewrite (proj2 (memq_not c endings) N), IH. reflexivity.
Qed.
Lemma read_split st endings : exists s st', read_string_item st endings = (s, st') /\ st = s ++ st' /\ Forall (fun c => ~ In c endings) s /\ (st' = [] \/ In (hd 0 st') endings).
Proof.
  induction st as [ | c st (s & st' & E & Es & F & R)]; [exists [], []; cbn; auto | ]. cbn [read_string_item].
  destruct (memq c endings) eqn:M.
  - exists [], (c :: st). split; [reflexivity | ]. split; [reflexivity | ]. split; [constructor | ]. right. cbn [hd]. now apply memq_in.
  - rewrite E. exists (c :: s), st'. split; [reflexivity | ]. split; [cbn; congruence | ]. split; [constructor; [now apply memq_not | exact F] | exact R].
Qed.
Lemma good_first n : good_name n -> exists c n', n = c :: n' /\ name_char c.
Proof. intros [N F]. destruct n as [ | c n']; [congruence | ]. exists c, n'. split; [reflexivity | ]. now inversion F. Qed.
Lemma name_not_ending n : Forall name_char n -> Forall (fun c => ~ In c token_endings) n.
Proof. apply Forall_impl. intros c H I. apply H. cbn in I |- *. intuition. Qed.
Lemma name_not_blank c : name_char c -> ~ blank c.
Proof. intros H I. apply H. unfold blank in I. cbn in I |- *. intuition. Qed.
(** A name read where it starts, after any white space *)
Lemma token_name w n rest : Forall blank w -> good_name n -> In (hd 0 rest) token_endings \/ rest = [] -> read_token (w ++ n ++ rest) = (n, rest).
Proof.
  intros B G R. unfold read_token. rewrite eat_blanks by exact B. destruct (good_first n G) as (c & n' & -> & C). cbn [app].
  rewrite eat_stop by now apply name_not_blank. apply (read_until (c :: n')); [apply name_not_ending, (proj2 G) | tauto].
Qed.
Lemma after_name_ending t rest : after_name t -> In (hd 0 rest) token_endings -> In (hd 0 (t ++ rest)) token_endings \/ t ++ rest = [].
Proof. intros [-> | A] R; [now left | ]. left. destruct t as [ | c t]; cbn [app hd] in *; [cbn in A; lia | ]. cbn in A |- *. intuition. Qed.
Lemma blank_start w rest c : Forall blank w -> eat_whitespace (w ++ c :: rest) = (if memq c whitespace_chars then eat_whitespace rest else c :: rest).
Proof. intros B. now rewrite eat_blanks. Qed.

Lemma eat_end w c s : Forall blank w -> ~ blank c -> eat_whitespace (w ++ c :: s) = c :: s.
Proof. intros B N. rewrite eat_blanks by exact B. now apply eat_stop. Qed.
Ltac nb := let I := fresh in intros I; unfold blank in I; cbn in I; lia.

Lemma params_ok g ps t : params_written ps t -> decodes g t -> forall n rest acc, (length ps < n)%nat -> In (hd 0 rest) [63; 47; 62] ->
  read_params g n (t ++ rest) acc = Ok (rev acc ++ ps, rest).
Proof.
  induction 1 as [w B | w nm w1 w2 q u v ps t B N B1 A1 B2 Q St Iq P IH]; intros D n rest acc L R; destruct n as [ | n]; try (cbn in L; lia).
  - destruct rest as [ | c rest]; [cbn in R; lia | ]. cbn [hd] in R. cbn [read_params]. rewrite eat_end; [ | exact B | intros I; unfold blank in I; cbn in I, R; lia].
    assert (E : at_char (c :: rest) 63 || at_char (c :: rest) 47 || at_char (c :: rest) 62 = true) by (cbn; cbn in R; lia).
    rewrite E, app_nil_r. reflexivity.
  - destruct N as [N N63]. destruct (good_first nm N) as (c & n' & -> & C). cbn [hd] in N63. cbn [read_params].
    set (tail := w1 ++ 61 :: w2 ++ q :: u ++ q :: t ++ rest).
    replace ((w ++ (c :: n') ++ w1 ++ 61 :: w2 ++ q :: u ++ q :: t) ++ rest) with (w ++ c :: n' ++ tail)
      by (unfold tail; lapp).
    rewrite eat_end; [ | exact B | now apply name_not_blank].
    assert (E : at_char (c :: n' ++ tail) 63 || at_char (c :: n' ++ tail) 47 || at_char (c :: n' ++ tail) 62 = false).
    { cbn [at_char]. unfold name_char in C. cbn in C. lia. }
    rewrite E. change (c :: n' ++ tail) with ([] ++ (c :: n') ++ tail). rewrite (token_name [] (c :: n') tail); [ | constructor | exact N | apply after_name_ending; [exact A1 | cbn; lia]].
    unfold tail. rewrite eat_end; [ | exact B1 | nb]. cbn [at_char tl]. change (negb (61 =? 61)) with false. cbn iota.
    rewrite eat_end; [ | exact B2 | destruct Q as [-> | ->]; nb].
    unfold read_quoted_token. assert (Sq : isspace q = false) by (unfold isspace; destruct Q as [-> | ->]; reflexivity).
    assert (Mq : memq q [34; 39] = true) by (destruct Q as [-> | ->]; reflexivity). rewrite Sq, Mq. cbn [negb].
    rewrite read_until; [ | | right; now left].
    2: { apply Forall_forall. intros x X [E' | []]. subst x. exact (Iq X). }
    rewrite (decode_this g _ u v D); [ | | exact St].
    2: { exists (w ++ (c :: n') ++ w1 ++ 61 :: w2 ++ [q]), (q :: t). lapp. }
    cbn [bind tl]. rewrite IH; [ | | cbn in L; lia | exact R].
    + cbn [rev]. rewrite <- app_assoc. reflexivity.
    + refine (decodes_sub g t _ _ D). exists (w ++ (c :: n') ++ w1 ++ 61 :: w2 ++ q :: u ++ [q]), []. rewrite app_nil_r. lapp.
Qed.
Lemma params_len ps t : params_written ps t -> (length ps <= length t)%nat.
Proof. induction 1; cbn [length]; [lia | ]. rewrite !app_length. cbn [length]. rewrite !app_length. cbn [length]. rewrite !app_length. cbn [length]. lia. Qed.
Lemma params_start ps t rest : params_written ps t -> after_name t -> rest <> [] -> hd 0 (t ++ rest) = hd 0 rest \/ In (hd 0 (t ++ rest)) [32; 10; 9].
Proof. intros _ [-> | A] R; [now left | ]. right. destruct t as [ | c t]; [cbn in A; lia | exact A]. Qed.

Scheme written_mut := Minimality for written Sort Prop
  with body_mut := Minimality for body_written Sort Prop.
Lemma written_len i u : written i u -> (1 <= length u)%nat.
Proof. destruct 1; cbn [length]; try lia. destruct u; [congruence | cbn; lia]. Qed.
Lemma written_start i u : written i u -> ~ is_text i -> exists u', u = 60 :: u'.
Proof. destruct 1; intros N; eauto. exfalso. apply N. exact I. Qed.

Section Reading.
  Variable g : list Z -> res (list Z).
  Definition reads (i : xml) (t : list Z) : Prop := decodes g t -> forall n rest, may_follow i rest -> (2 * length t < n)%nat ->
    read_item g n (t ++ rest) = Ok (Item i, rest).
  Definition reads_body (l : list xml) (u : list Z) : Prop := decodes g u -> forall n w nm w' rest acc, (2 * length u + 1 < n)%nat ->
    Forall blank w -> good_name nm -> Forall blank w' -> after_name w' ->
    read_items g n (u ++ [60; 47] ++ w ++ nm ++ w' ++ 62 :: rest) acc = Ok (Some nm, rev l ++ acc, rest).

  Lemma read_item_S n st : read_item g (S n) st =
        match st with
        | [] => Ok (Nothing, [])
        | c :: st1 =>
            if c =? 60 then
              if at_char st1 47 then read_end (tl st1)
              else if at_char st1 63 then read_question_body g n (tl st1)
              else if at_char st1 33 then read_exclam_body g (tl st1)
              else
                let '(name, st2) := read_token st1 in
                let* (params, st3) := read_params g n st2 [] in
                if at_char st3 47 then
                  if negb (at_char (tl st3) 62) then Err else Ok (Item (Elem name params []), tl (tl st3))
                else if negb (at_char st3 62) then Err
                else
                  let* (r, st4) := read_items g n (tl st3) [] in
                  let '(ended, items) := r in
                  if negb (same_name ended name) then Err
                  else Ok (Item (Elem name params (rev items)), st4)
            else
              let '(s, st2) := read_string_item st [60] in
              let* v := g s in Ok (Item (Text v), st2)
        end.
  Proof. reflexivity. Qed.
  Lemma read_items_S n st items : read_items g (S n) st items =
        match st with
        | [] => Ok (None, items, [])
        | _ :: _ =>
            let* (r, st') := read_item g n st in
            match r with
            | Item i => read_items g n st' (i :: items)
            | Nothing => Ok (None, items, st')
            | Ended name => Ok (Some name, items, st')
            end
        end.
  Proof. reflexivity. Qed.

  Lemma read_end_ok w nm w' rest : Forall blank w -> good_name nm -> Forall blank w' -> after_name w' ->
    read_end (w ++ nm ++ w' ++ 62 :: rest) = Ok (Ended nm, rest).
  Proof.
    intros B N B' A. unfold read_end. rewrite eat_blanks by exact B. destruct (good_first nm N) as (c & n' & -> & C). cbn [app].
    rewrite eat_stop by now apply name_not_blank.
    change (c :: n' ++ w' ++ 62 :: rest) with ([] ++ (c :: n') ++ w' ++ 62 :: rest).
    rewrite (token_name [] (c :: n') (w' ++ 62 :: rest)); [ | constructor | exact N | apply after_name_ending; [exact A | cbn; lia]].
    rewrite eat_end; [ | exact B' | nb]. reflexivity.
  Qed.
  (** The start of a tag *)
  Lemma tag_start nm ps t n rest : elem_name nm -> params_written ps t -> after_name t -> decodes g t -> (length t < n)%nat -> In (hd 0 rest) [47; 62] ->
    read_item g (S n) (60 :: nm ++ t ++ rest) =
      if at_char rest 47 then
        if negb (at_char (tl rest) 62) then Err else Ok (Item (Elem nm ps []), tl (tl rest))
      else if negb (at_char rest 62) then Err
      else
        let* (r, st4) := read_items g n (tl rest) [] in
        let '(ended, items) := r in
        if negb (same_name ended nm) then Err
        else Ok (Item (Elem nm ps (rev items)), st4).
  Proof.
    intros (N & N33 & N63) P A D L R. rewrite read_item_S. change (60 =? 60) with true. cbn iota.
    assert (T : read_token (nm ++ t ++ rest) = (nm, t ++ rest)).
    { apply (token_name [] nm (t ++ rest)); [constructor | exact N | ]. apply after_name_ending; [exact A | cbn in R |- *; lia]. }
    rewrite T.
    destruct (good_first nm N) as (c & n' & -> & C). cbn [app at_char hd] in *.
    assert (E47 : (c =? 47) = false) by (unfold name_char in C; cbn in C; lia). assert (E63 : (c =? 63) = false) by lia. assert (E33 : (c =? 33) = false) by lia.
    rewrite E47, E63, E33. rewrite (params_ok g ps t P D); [ | assert (X := params_len _ _ P); lia | cbn in R |- *; lia]. reflexivity.
  Qed.
  Lemma same_refl nm : same_name (Some nm) nm = true.
  Proof. unfold same_name. destruct (list_eq_dec Z.eq_dec nm nm); congruence. Qed.

  Lemma read_written_both : (forall i t, written i t -> reads i t) /\ (forall l u, body_written l u -> reads_body l u).
  Proof.
    assert (X : forall P Q : Prop, P -> Q -> P /\ Q) by (intros; split; auto).
    assert (C1 : forall u s, stands u s -> u <> [] -> ~ In 60 u -> reads (Text s) u).
    { intros u s St N I D n rest F L. destruct n as [ | n]; [lia | ]. rewrite read_item_S.
      destruct u as [ | c u]; [congruence | ]. cbn [app].
      assert (E : (c =? 60) = false) by (destruct (Z.eqb_spec c 60) as [-> | ]; [exfalso; apply I; now left | reflexivity]). rewrite E.
      assert (RU : read_string_item (c :: u ++ rest) [60] = (c :: u, rest)).
      { apply (read_until (c :: u)); [ | ].
        - apply Forall_forall. intros x Hx [E' | []]. subst x. exact (I Hx).
        - destruct (F ltac:(exact Logic.I)) as [F' | F']; [now left | right; rewrite F'; now left]. }
      rewrite RU. rewrite (decode_this g _ (c :: u) s D); [reflexivity | exists [], []; now rewrite app_nil_r | exact St]. }
    assert (C2 : forall n ps t, elem_name n -> params_written ps t -> after_name t -> reads (Elem n ps []) (60 :: n ++ t ++ [47; 62])).
    { intros nm ps t N P A D n rest F L. destruct n as [ | n]; [lia | ].
      replace ((60 :: nm ++ t ++ [47; 62]) ++ rest) with (60 :: nm ++ t ++ 47 :: 62 :: rest) by lapp.
      rewrite (tag_start nm ps t n (47 :: 62 :: rest) N P A); [reflexivity | | | cbn; lia].
      - refine (decodes_sub g t _ _ D). exists (60 :: nm), [47; 62]. reflexivity.
      - cbn [length] in L. rewrite !app_length in L. lia. }
    assert (C3 : forall n ps t body u w w', elem_name n -> params_written ps t -> after_name t -> body_written body u -> reads_body body u ->
      Forall blank w -> Forall blank w' -> after_name w' -> reads (Elem n ps body) (60 :: n ++ t ++ 62 :: u ++ [60; 47] ++ w ++ n ++ w' ++ [62])).
    { intros nm ps t body u w w' N P A Bw IH B B' A' D n rest F L. destruct n as [ | n]; [lia | ].
      set (tail := u ++ [60; 47] ++ w ++ nm ++ w' ++ 62 :: rest).
      replace ((60 :: nm ++ t ++ 62 :: u ++ [60; 47] ++ w ++ nm ++ w' ++ [62]) ++ rest) with (60 :: nm ++ t ++ 62 :: tail)
        by (unfold tail; lapp).
      assert (Ln : (2 * length t + 2 * length u + 6 < S n)%nat) by (cbn [length] in L; rewrite !app_length in L; cbn [length] in L; rewrite !app_length in L; cbn [length] in L; lia).
      rewrite (tag_start nm ps t n (62 :: tail) N P A); [ | | lia | cbn; lia].
      2: { refine (decodes_sub g t _ _ D). exists (60 :: nm), (62 :: u ++ [60; 47] ++ w ++ nm ++ w' ++ [62]). reflexivity. }
      cbn [at_char tl]. change (62 =? 47) with false. change (negb (62 =? 62)) with false. cbn iota. unfold tail.
      rewrite IH; [ | | lia | exact B | exact (proj1 N) | exact B' | exact A'].
      - cbn [bind]. rewrite same_refl. cbn [negb]. rewrite app_nil_r, rev_involutive. reflexivity.
      - refine (decodes_sub g u _ _ D). exists (60 :: nm ++ t ++ [62]), ([60; 47] ++ w ++ nm ++ w' ++ [62]). lapp. }
    assert (C4 : forall n ps t, good_name n -> params_written ps t -> after_name t -> t <> [] -> reads (Elem (63 :: n) ps []) (60 :: 63 :: n ++ t ++ [63; 62])).
    { intros nm ps t N P A T D n rest F L. destruct n as [ | n]; [lia | ].
      replace ((60 :: 63 :: nm ++ t ++ [63; 62]) ++ rest) with (60 :: 63 :: nm ++ t ++ 63 :: 62 :: rest) by lapp.
      rewrite read_item_S. change (60 =? 60) with true. cbn iota. cbn [at_char]. change (63 =? 47) with false. change (63 =? 63) with true. cbn iota.
      unfold read_question_body. cbn [tl].
      assert (Tk : read_token (nm ++ t ++ 63 :: 62 :: rest) = (nm, t ++ 63 :: 62 :: rest)).
      { apply (token_name [] nm); [constructor | exact N | ]. left. destruct t as [ | c t]; [congruence | ]. destruct A as [A | A]; [discriminate | ]. cbn [app hd] in *. cbn in A |- *. lia. }
      rewrite Tk. rewrite (params_ok g ps t P); [reflexivity | | | cbn; lia].
      - refine (decodes_sub g t _ _ D). exists (60 :: 63 :: nm), [63; 62]. reflexivity.
      - assert (Y := params_len _ _ P). cbn [length] in L. rewrite !app_length in L. lia. }
    assert (C5 : forall u s, stands u s -> ~ In 62 u -> reads (Bang s) (60 :: 33 :: u ++ [62])).
    { intros u s St I D n rest F L. destruct n as [ | n]; [lia | ].
      replace ((60 :: 33 :: u ++ [62]) ++ rest) with (60 :: 33 :: u ++ 62 :: rest) by lapp.
      rewrite read_item_S. change (60 =? 60) with true. cbn iota. cbn [at_char]. change (33 =? 47) with false. change (33 =? 63) with false. change (33 =? 33) with true. cbn iota.
      unfold read_exclam_body. cbn [tl]. rewrite read_until; [ | | right; now left].
      2: { apply Forall_forall. intros x Hx [E' | []]. subst x. exact (I Hx). }
      rewrite (decode_this g _ u s D); [reflexivity | exists [60; 33], [62]; reflexivity | exact St]. }
    assert (C6 : reads_body [] []).
    { intros D n w nm w' rest acc L B N B' A. destruct n as [ | [ | n]]; [lia | cbn in L; lia | ]. cbn [app]. rewrite read_items_S, read_item_S.
      change (60 =? 60) with true. cbn iota. cbn [at_char tl]. change (47 =? 47) with true. cbn iota. rewrite read_end_ok by assumption. reflexivity. }
    assert (C7 : forall i u l t, written i u -> reads i u -> (is_text i -> ~ starts_text l) -> body_written l t -> reads_body l t -> reads_body (i :: l) (u ++ t)).
    { intros i u l t W R S Bw IH D n w nm w' rest acc L B N B' A. destruct n as [ | n]; [lia | ].
      assert (Lu := written_len i u W). rewrite app_length in L. rewrite <- app_assoc. rewrite read_items_S.
      set (tail := t ++ [60; 47] ++ w ++ nm ++ w' ++ 62 :: rest).
      assert (M : may_follow i tail).
      { intros Ti. right. specialize (S Ti). unfold tail. destruct Bw as [ | i' u' l' t' W' S' Bw']; [reflexivity | ].
        assert (Ni : ~ is_text i') by exact S. destruct (written_start i' u' W' Ni) as (x & ->). reflexivity. }
      rewrite (R (decodes_sub g u (u ++ t) (ex_intro _ [] (ex_intro _ t eq_refl)) D) n tail M ltac:(lia)).
      destruct (u ++ tail) as [ | c st] eqn:E; [apply app_eq_nil in E as [-> _]; cbn in Lu; lia | ]. cbn [bind].
      unfold tail. rewrite IH; [ | | lia | exact B | exact N | exact B' | exact A].
      - cbn [rev]. rewrite <- app_assoc. reflexivity.
      - refine (decodes_sub g t _ _ D). exists u, []. now rewrite app_nil_r. }
    apply X; intros i t W.
    - exact (written_mut reads reads_body C1 C2 C3 C4 C5 C6 C7 i t W).
    - exact (body_mut reads reads_body C1 C2 C3 C4 C5 C6 C7 i t W).
  Qed.
End Reading.
