(** Proofs about messages of remote procedure calls. *)

From Coq Require Import ZArith List Bool Lia ZifyBool.
From Verif Require Import Numbers_Model Numbers_Spec Reader_Model Reader_Spec Reader_Proofs Rpc_Model Rpc_Spec.
Import ListNotations.
Open Scope Z_scope.

Definition forget {A} (r : rk A) : rd A :=
  match r with KOk a t => ROk a t | KEnd | KBad => RErr | KFuel => RFuel end.

Lemma forget_map {A B} (f : A -> B) r : forget (rk_map f r) = rd_map f (forget r).
Proof. destruct r; reflexivity. Qed.
Lemma forget_kind {A} (e : rk A) r : e = KEnd \/ e = KBad -> forget (with_kind e r) = r.
Proof. intros [->| ->]; destruct r; reflexivity. Qed.
Lemma forget_symbol t : forget (read_symbol_k t) = read_symbol t.
Proof.
  unfold read_symbol_k, read_symbol. destruct (sym_loop t start_buflen 0 [] n_start false) as [[b s] t'| |]; try reflexivity.
  destruct (symbol_or_number b s (Nat.ltb start_buflen (length b))); reflexivity.
Qed.
Lemma forget_str t : forget (read_str_k t) = read_str t.
Proof. apply forget_kind. auto. Qed.
Lemma forget_skip s r t : forget (skip_chars_k s r t) = skip_chars s r t.
Proof. apply forget_kind. auto. Qed.
Lemma forget_char t : forget (read_char_name_k t) = read_char_name t.
Proof. unfold read_char_name_k. destruct t; [reflexivity|]. apply forget_kind. auto. Qed.

Lemma forget_reader : forall f,
  (forall t, forget (readl_k f t) = readl f t) /\
  (forall t e tl, forget (read_list_k f t e tl) = read_list f t e tl).
Proof.
  induction f as [|f [IH1 IH2]]; [split; reflexivity|]. split.
  - intros [|c t]; [reflexivity|]. cbn [readl_k readl]. cbv zeta.
    assert (ID : forall txt,
      forget (match read_symbol_k txt with
        | KOk form (x :: t') =>
          if (x =? 35) && match form with SSym _ | SNew _ => true | _ => false end then
            match read_symbol_k t' with
            | KOk var t'' => KOk (list3 (SSym sym_structure_ref) form var) t''
            | r => r
            end
          else KOk form (x :: t')
        | r => r
        end) =
      match read_symbol txt with
        | ROk form (x :: t') =>
          if (x =? 35) && match form with SSym _ | SNew _ => true | _ => false end then
            match read_symbol t' with
            | ROk var t'' => ROk (list3 (SSym sym_structure_ref) form var) t''
            | r => r
            end
          else ROk form (x :: t')
        | r => r
        end).
    { intros txt. rewrite <- (forget_symbol txt). destruct (read_symbol_k txt) as [form [|x t']| | |]; try reflexivity.
      cbn [forget]. destruct ((x =? 35) && _); [|reflexivity].
      rewrite <- (forget_symbol t'). destruct (read_symbol_k t'); reflexivity. }
    destruct (white c); [apply IH1|]. destruct (c =? 59); [apply IH1|]. destruct (c =? 40); [apply IH2|].
    destruct (c =? 39); [rewrite forget_map, IH1; reflexivity|].
    destruct (c =? 96); [rewrite forget_map, IH1; reflexivity|].
    destruct (c =? 44).
    { destruct t as [|x t']; [reflexivity|]. destruct (x =? 64); rewrite forget_map, IH1; reflexivity. }
    destruct (c =? 91); [rewrite forget_map, IH2; reflexivity|].
    destruct (c =? 34); [apply forget_str|].
    destruct (c =? 63).
    { destruct t as [|d t']; [reflexivity|]. destruct (d =? 92); [|reflexivity]. destruct t'; [reflexivity|].
      destruct (read_esc (z :: t')); reflexivity. }
    destruct (c =? 35); [|apply ID].
    destruct t as [|d t']; [reflexivity|].
    destruct (d =? 39); [rewrite forget_map, IH1; reflexivity|].
    destruct (d =? 91).
    { rewrite <- IH2. destruct (read_list_k f t' [] SNil); try reflexivity. cbn [forget]. destruct (compiled_ok (elements a)); reflexivity. }
    destruct (d =? 40); [rewrite forget_map, IH2; reflexivity|].
    destruct (d =? 124); [destruct (read_comment 124 t' 1); [apply IH1|reflexivity]|].
    destruct (d =? 92); [apply forget_char|].
    destruct (d =? 33).
    { destruct t' as [|e t'']; [reflexivity|]. destruct (e =? 111); [apply forget_skip|].
      destruct (e =? 114); [apply forget_skip|]. destruct (e =? 107); [apply forget_skip|reflexivity]. }
    destruct (d =? 58); [rewrite forget_map, forget_symbol; reflexivity|].
    destruct (one_of d [116; 84]); [reflexivity|]. destruct (one_of d [102; 70]); [reflexivity|].
    destruct (one_of d _); [apply ID|]. destruct (d =? 117); [apply forget_skip|reflexivity].
  - intros [|c t] e tl; [reflexivity|]. cbn [read_list_k read_list]. cbv zeta.
    assert (EL : forall txt, forget (match readl_k f txt with KOk v t' => read_list_k f t' (v :: e) SNil | r => r end)
               = match readl f txt with ROk v t' => read_list f t' (v :: e) SNil | r => r end).
    { intros txt. rewrite <- IH1. destruct (readl_k f txt); try reflexivity. apply IH2. }
    destruct (white c); [apply IH2|]. destruct (c =? 59); [apply IH2|]. destruct (one_of c [41; 93]); [reflexivity|].
    destruct (c =? 46).
    { destruct t as [|d t']; [reflexivity|]. destruct (white d); [|apply EL]. destruct e as [|x e]; [reflexivity|].
      rewrite <- IH1. destruct (readl_k f (d :: t')); try reflexivity. apply IH2. }
    destruct (c =? 35); [|apply EL]. destruct t as [|d t']; [reflexivity|].
    destruct (d =? 124); [destruct (read_comment 124 t' 1); [apply IH2|reflexivity]|apply EL].
Qed.

Lemma readl_ok f t v r : readl f t = ROk v r -> readl_k f t = KOk v r.
Proof. rewrite <- (proj1 (forget_reader f)). destruct (readl_k f t); cbn [forget]; congruence. Qed.
Lemma read_list_ok f t e tl v r : read_list f t e tl = ROk v r -> read_list_k f t e tl = KOk v r.
Proof. rewrite <- (proj2 (forget_reader f)). destruct (read_list_k f t e tl); cbn [forget]; congruence. Qed.

(** ** Reading the beginning of a text *)

(** The end of the text is found, or a token that it ends. *)
Definition ends (r : rk sexp) : Prop := r = KEnd \/ exists v, r = KOk v [].

Lemma app_split {A} : forall (a b p q : list A), a ++ b = p ++ q ->
  (exists x, x <> [] /\ a = p ++ x) \/ (exists p', p = a ++ p' /\ b = p' ++ q).
Proof.
  induction a as [|x a IH]; intros b p q E; cbn [app] in E; [right; exists p; split; [reflexivity|exact E]|].
  destruct p as [|y p]; [left; exists (x :: a); split; [discriminate|reflexivity]|].
  cbn [app] in E. injection E as <- E. destruct (IH b p q E) as [(z & N & ->)|(p' & -> & ->)].
  - left. exists z. split; [exact N|reflexivity].
  - right. exists p'. split; reflexivity.
Qed.

Lemma sym_prefix : forall l bl i buf s p q, Forall tok_ok l -> flat l = p ++ q ->
  sym_loop p bl i buf s false = RErr \/
  exists b s', sym_loop p bl i buf s false = ROk (rev buf ++ b, s') [] /\ (p <> [] -> b <> []).
Proof.
  induction l as [|[e c] l IH]; intros bl i buf s p q F E.
  - destruct p; [|discriminate]. right. exists [], s. rewrite app_nil_r. split; [reflexivity|congruence].
  - inversion F as [|? ? H1 H2]; subst. destruct p as [|x p].
    { right. exists [], s. rewrite app_nil_r. split; [reflexivity|congruence]. }
    unfold flat in E. cbn [map concat] in E. fold (flat l) in E. destruct e; unfold flat1 in E; cbn [fst snd app] in E.
    + injection E as <- E. destruct p as [|y p]; [left; reflexivity|]. cbn [app] in E. injection E as <- E.
      cbn [sym_loop]. change (delim 92) with false. change (92 =? 35) with false.
      change (92 =? 92) with true. cbn [andb]. cbv iota.
      destruct (IH (if Nat.eqb i bl then (bl * 2)%nat else bl) (S i) (c :: buf) (set_radix 0 s) p q H2 E) as [->|(b & s' & -> & N)]; [left; reflexivity|].
      right. exists (c :: b), s'. cbn [rev]. rewrite <- app_assoc. split; [reflexivity|discriminate].
    + injection E as <- E. destruct (H1 eq_refl) as (P1 & P2 & P3 & P4). cbn [snd] in *. cbn [sym_loop].
      rewrite P1. rewrite (proj2 (Z.eqb_neq c 35) P4), (proj2 (Z.eqb_neq c 92) P2), (proj2 (Z.eqb_neq c 124) P3).
      cbn [andb].
      destruct (IH (if Nat.eqb i bl then (bl * 2)%nat else bl) (S i) (c :: buf) (if radix s =? 0 then s else n_step i c s) p q H2 E) as [->|(b & s' & -> & N)]; [left; reflexivity|].
      right. exists (c :: b), s'. cbn [rev]. rewrite <- app_assoc. split; [reflexivity|discriminate].
Qed.

Lemma symbol_some b s f : b <> [] -> exists v, symbol_or_number b s f = Some v.
Proof.
  intros N. destruct b as [|c b]; [congruence|]. unfold symbol_or_number.
  destruct ((0 <? radix s) && _); [|eexists; reflexivity].
  destruct (radix s =? 1); [eexists; reflexivity|].
  destruct (negb (exact_ s)); [destruct (strtod_accepts _); eexists; reflexivity|].
  destruct (rational s); [destruct (parse_rational _ _ _); eexists; reflexivity|].
  destruct (parse_number _ _ _); eexists; reflexivity.
Qed.

Lemma symbol_prefix l p q : Forall tok_ok l -> flat l = p ++ q -> p <> [] -> ends (read_symbol_k p).
Proof.
  intros F E N. unfold read_symbol_k.
  destruct (sym_prefix l start_buflen 0 [] n_start p q F E) as [->|(b & s' & -> & NB)]; [left; reflexivity|].
  cbn [rev app]. destruct (symbol_some b s' (Nat.ltb start_buflen (length b)) (NB N)) as (v & ->). right. exists v. reflexivity.
Qed.

Lemma readl_identifier_k f c t : delim c = false -> c <> 63 -> c <> 35 ->
  ends (read_symbol_k (c :: t)) -> ends (readl_k (S f) (c :: t)).
Proof.
  intros D N63 N35 E. cbn [readl_k].
  assert (W : white c = false) by (unfold delim in D; destruct (white c); auto).
  rewrite W. unfold delim in D. rewrite W in D. cbn [orb] in D. apply one_of_false in D. simpl in D.
  rewrite (proj2 (Z.eqb_neq c 59)) by lia. rewrite (proj2 (Z.eqb_neq c 40)) by lia.
  rewrite (proj2 (Z.eqb_neq c 39)) by lia. rewrite (proj2 (Z.eqb_neq c 96)) by lia.
  rewrite (proj2 (Z.eqb_neq c 44)) by lia. rewrite (proj2 (Z.eqb_neq c 91)) by lia.
  rewrite (proj2 (Z.eqb_neq c 34)) by lia. rewrite (proj2 (Z.eqb_neq c 63)) by lia.
  rewrite (proj2 (Z.eqb_neq c 35)) by lia.
  destruct E as [->|(v & ->)]; [left; reflexivity|right; exists v; reflexivity].
Qed.

Lemma list_element_k : forall f text elems tail v rest, starts_ok text -> readl_k f text = KOk v rest ->
  read_list_k (S f) text elems tail = read_list_k f rest (v :: elems) SNil.
Proof.
  intros f [|c t] elems tail v rest; [intros []|]. intros (W & N1 & N2 & N3 & D & H) E.
  cbn [read_list_k]. rewrite W. rewrite (proj2 (Z.eqb_neq c 59) N1).
  assert (O : one_of c [41; 93] = false).
  { destruct (one_of c [41; 93]) eqn:O; [|reflexivity]. apply one_of_In in O. simpl in O. lia. }
  rewrite O. destruct (c =? 46) eqn:E46.
  - destruct (D ltac:(lia)) as (d & t' & -> & Wd). rewrite Wd, E. reflexivity.
  - destruct (c =? 35) eqn:E35.
    + destruct (H ltac:(lia)) as (d & t' & -> & Nd). rewrite (proj2 (Z.eqb_neq d 124) Nd), E. reflexivity.
    + rewrite E. reflexivity.
Qed.

(** Like starts_ok for the beginning of the text of a datum *)
Definition starts_k (text : list Z) : Prop :=
  match text with
  | [] => False
  | c :: t => white c = false /\ c <> 59 /\ c <> 41 /\ c <> 93 /\ c <> 35 /\
              (c = 46 -> match t with [] => True | d :: _ => white d = false end)
  end.
Lemma starts_prefix text p q : starts_ok text -> hd 0 text <> 35 -> text = p ++ q -> p <> [] -> starts_k p.
Proof.
  intros S H E N. destruct p as [|c p]; [congruence|]. cbn [app] in E. subst text. cbn [hd] in H.
  destruct S as (W & N1 & N2 & N3 & D & _). repeat split; auto. intros C. destruct (D C) as (d & t & Et & Wd).
  destruct p as [|x p]; [exact I|]. cbn [app] in Et. injection Et as -> _. exact Wd.
Qed.

Lemma element_end f text elems tail : starts_k text -> (1 <= f)%nat -> ends (readl_k f text) ->
  read_list_k (S f) text elems tail = KEnd.
Proof.
  destruct text as [|c t]; [intros []|]. intros (W & N1 & N2 & N3 & N4 & D) F E.
  assert (EL : match readl_k f (c :: t) with KOk v t' => read_list_k f t' (v :: elems) SNil | r => r end = KEnd).
  { destruct E as [->|(v & ->)]; [reflexivity|]. destruct f; [lia|]. reflexivity. }
  cbn [read_list_k]. rewrite W. rewrite (proj2 (Z.eqb_neq c 59) N1).
  assert (O : one_of c [41; 93] = false).
  { destruct (one_of c [41; 93]) eqn:O; [|reflexivity]. apply one_of_In in O. simpl in O. lia. }
  rewrite O. destruct (c =? 46) eqn:E46.
  - specialize (D ltac:(lia)). destruct t as [|d t]; [reflexivity|]. rewrite D. exact EL.
  - rewrite (proj2 (Z.eqb_neq c 35) N4). exact EL.
Qed.

(** Strings *)
Lemma cinv (x y : Z) l l' : x :: l = y :: l' -> x = y /\ l = l'.
Proof. intros H. split; congruence. Qed.
Lemma str_prefix m : forall s fuel p q acc, Forall byte s -> concat (map (print_char m) s) = p ++ q ->
  (length p < fuel)%nat -> str_loop fuel p acc = RErr.
Proof.
  induction s as [|c s IH]; intros fuel p q acc B E F.
  - destruct p; [|discriminate]. destruct fuel; [lia|reflexivity].
  - inversion B; subst. cbn [map concat] in E. destruct (app_split _ _ _ _ E) as [(x & N & EX)|(p' & -> & E')].
    + destruct p as [|y p]; [destruct fuel; [lia|reflexivity]|].
      assert (ONE : forall z, [z] = (y :: p) ++ x -> False).
      { intros z Ez. cbn [app] in Ez. injection Ez as _ Ez. symmetry in Ez. apply app_eq_nil in Ez. tauto. }
      assert (TWO : forall z, [92; z] = (y :: p) ++ x -> y = 92 /\ p = []).
      { intros z Ez. cbn [app] in Ez. injection Ez as Ey Ez. split; [auto|]. destruct p as [|w p]; [reflexivity|].
        cbn [app] in Ez. injection Ez as _ Ez. symmetry in Ez. apply app_eq_nil in Ez. tauto. }
      unfold print_char in EX.
      set (ea := match m with EscAll => true | _ => false end) in *.
      set (en := match m with EscNone => false | _ => true end) in *.
      destruct (ea && ((c <? 32) || (126 <? c))).
      * unfold byte in *.
        assert (D : 0 <= c / 64 < 4 /\ c = 64 * (c / 64) + c mod 64 /\ 0 <= c mod 64 < 64).
        { pose proof (Z.div_mod c 64). pose proof (Z.mod_pos_bound c 64). lia. }
        assert (D2 : 0 <= (c mod 64) / 8 < 8).
        { split; [apply Z.div_pos; lia|]. apply Z.div_lt_upper_bound; lia. }
        revert EX D D2. generalize (c / 64) (c mod 64) (c mod 8). intros a r b. generalize (r / 8). intros d EX D D2.
        cbn [app] in EX. apply cinv in EX. destruct EX as [E1 EX]. subst y.
        assert (O : forall x, 0 <= x < 8 -> is_octal (48 + x) = true) by (intros; unfold is_octal; lia).
        assert (ESC : forall t, read_esc (48 + a :: t) =
          match t with
          | d1 :: t1 =>
            if is_octal d1 then
              match t1 with
              | d2 :: t2 =>
                if is_octal d2 then (wrap 8 (wrap 8 ((48 + a - 48) * 8 + (d1 - 48)) * 8 + (d2 - 48)), t2)
                else (wrap 8 ((48 + a - 48) * 8 + (d1 - 48)), t1)
              | [] => (wrap 8 ((48 + a - 48) * 8 + (d1 - 48)), t1)
              end
            else (48 + a - 48, t)
          | [] => (48 + a - 48, t)
          end).
        { intros t. unfold read_esc.
          destruct (48 + a =? 110) eqn:?; [lia|]. destruct (48 + a =? 114) eqn:?; [lia|].
          destruct (48 + a =? 102) eqn:?; [lia|]. destruct (48 + a =? 116) eqn:?; [lia|].
          destruct (48 + a =? 118) eqn:?; [lia|]. destruct (48 + a =? 97) eqn:?; [lia|].
          destruct (48 + a =? 94) eqn:?; [lia|]. rewrite O by lia. reflexivity. }
        destruct p as [|y p]; [destruct fuel; [lia|reflexivity]|].
        cbn [app] in EX. apply cinv in EX. destruct EX as [E1 EX]. subst y.
        assert (ST : forall fu t ac, str_loop (S fu) (92 :: 48 + a :: t) ac =
                  (let (b0, t'') := read_esc (48 + a :: t) in str_loop fu t'' (b0 mod 256 :: ac))).
        { intros fu t ac. cbn [str_loop]. change (92 =? 34) with false. change (92 =? 92) with true. cbv iota.
          destruct (48 + a =? 10) eqn:?; [lia|]. reflexivity. }
        destruct fuel as [|fuel]; [lia|]. cbn [length] in F. rewrite ST, ESC.
        destruct p as [|y p]; [destruct fuel; [cbn [length] in F; lia|reflexivity]|].
        cbn [app] in EX. apply cinv in EX. destruct EX as [E1 EX]. subst y. rewrite O by lia.
        destruct p as [|y p]; [destruct fuel; [cbn [length] in F; lia|reflexivity]|].
        exfalso. cbn [app] in EX. apply cinv in EX. destruct EX as [_ EX]. symmetry in EX. apply app_eq_nil in EX. tauto.
      * assert (BS : y = 92 /\ p = [] -> str_loop fuel (y :: p) acc = RErr).
        { intros [-> ->]. destruct fuel; [lia|reflexivity]. }
        destruct (one_of c [9; 10; 13; 12]).
        -- destruct en; cbn [negb] in EX; [apply BS; eapply TWO; exact EX|exfalso; exact (ONE _ EX)].
        -- destruct (c =? 92); [apply BS; eapply TWO; exact EX|].
           destruct (c =? 34); [apply BS; eapply TWO; exact EX|exfalso; exact (ONE _ EX)].
    + destruct fuel as [|fuel]; [lia|]. rewrite str_char by assumption.
      apply (IH fuel p' q); [assumption|exact E'|]. rewrite app_length in F. pose proof (print_char_length m c). lia.
Qed.

Lemma string_prefix m s p q f : Forall byte s -> print_string m s = p ++ q -> q <> [] -> p <> [] ->
  readl_k (S f) p = KEnd.
Proof.
  intros B E NQ NP. destruct p as [|c p]; [congruence|]. unfold print_string in E. cbn [app] in E. injection E as <- E.
  change (readl_k (S f) (34 :: p)) with (read_str_k p). unfold read_str_k, read_str.
  assert (H : exists q', concat (map (print_char m) s) = p ++ q').
  { destruct (app_split _ _ _ _ E) as [(x & _ & ->)|(p' & -> & E')]; [exists x; reflexivity|].
    destruct p' as [|z p']; [exists []; rewrite !app_nil_r; reflexivity|]. cbn [app] in E'. injection E' as _ E'.
    symmetry in E'. apply app_eq_nil in E'. tauto. }
  destruct H as (q' & H). rewrite (str_prefix m s (S (length p)) p q' [] B H) by lia. reflexivity.
Qed.

(** Printed numbers are made of plain characters. *)
Lemma signed_all_plain z : Forall plain (signed_digits 10 z).
Proof.
  destruct (Z.eq_dec z 0) as [->|NZ].
  - change (signed_digits 10 0) with [48]. constructor; [apply digit_plain; unfold digitlike; lia|constructor].
  - rewrite signed_digits_text by auto. destruct (digits10 (Z.abs z) ltac:(lia)) as (c & l & -> & HC & FD & _).
    apply signed_plain, FD.
Qed.
Lemma num_plain n : canonical n -> Forall plain (print_num n).
Proof.
  intros C. destruct n as [z|z|[n d]]; [apply signed_all_plain|apply signed_all_plain|].
  unfold print_num. cbn [QArith_base.Qnum QArith_base.Qden]. repeat (apply Forall_app; split); try apply signed_all_plain.
  - constructor; [unfold plain; repeat split; lia|constructor].
  - destruct (digits10 (Z.pos d) ltac:(lia)) as (c & l & -> & _ & FD & _).
    eapply Forall_impl; [apply digit_plain|exact FD].
Qed.

Section Prefix.
  Variable m : escape.

  Definition any (v : sexp) : Prop := forall p q f, print_val m v = p ++ q ->
    (2 * length p + 1 <= f)%nat -> ends (readl_k f p).
  Definition unfinished (text : list Z) : Prop := forall p q f elems tail, text = p ++ q ->
    (2 * length p + 2 <= f)%nat -> read_list_k f p elems tail = KEnd.
  Definition cut_ok (v : sexp) : Prop := any v /\ hd 0 (print_val m v) <> 35 /\
    match v with SCons _ _ => unfinished (print_cells m v) | _ => True end.

  Lemma whole v rest f : printable v -> token_end rest -> (2 * length (print_val m v ++ rest) + 1 <= f)%nat ->
    readl_k f (print_val m v ++ rest) = KOk v rest.
  Proof. intros P T L. apply readl_ok. exact (print_read m v rest f P T L). Qed.

  Lemma any_of v : printable v ->
    (forall p q f, print_val m v = p ++ q -> q <> [] -> p <> [] -> (2 * length p + 1 <= f)%nat -> ends (readl_k f p)) ->
    any v.
  Proof.
    intros P H p q f E L. destruct p as [|c p]; [destruct f; [lia|]; left; reflexivity|].
    destruct q as [|d q]; [|apply (H (c :: p) (d :: q)); [exact E|discriminate|discriminate|exact L]].
    rewrite app_nil_r in E. rewrite <- E in *. right. exists v.
    rewrite <- (app_nil_r (print_val m v)). apply whole; [exact P|exact I|rewrite app_nil_r; exact L].
  Qed.

  Lemma nonempty v : printable v -> (1 <= length (print_val m v))%nat.
  Proof.
    intros P. destruct (printable_good m v P) as (_ & S & _). specialize (S []). rewrite app_nil_r in S.
    destruct (print_val m v); [destruct S|cbn [length]; lia].
  Qed.

  Lemma list_white_k f t e tl : read_list_k (S f) (32 :: t) e tl = read_list_k f t e tl.
  Proof. reflexivity. Qed.

  (** An element and what follows it *)
  Lemma unfinished_step a R : printable a -> cut_ok a ->
    (R = [] \/ exists t, R = 32 :: t /\ forall p q f e, t = p ++ q -> (2 * length p + 2 <= f)%nat ->
       read_list_k f p (a :: e) SNil = KEnd) ->
    unfinished (print_val m a ++ R).
  Proof.
    intros P (ANY & HD & _) HR p q f elems tail E L.
    destruct (printable_good m a P) as (_ & SA & _).
    destruct (app_split _ _ _ _ E) as [(x & N & EX)|(p' & -> & E')].
    - destruct p as [|c p]; [destruct f; [lia|reflexivity]|].
      destruct f as [|f]; [lia|]. apply element_end.
      + eapply starts_prefix; [specialize (SA []); rewrite app_nil_r in SA; exact SA|exact HD|exact EX|discriminate].
      + cbn [length] in L. lia.
      + apply (ANY _ x); [exact EX|lia].
    - destruct f as [|f]; [lia|]. rewrite app_length in L. pose proof (nonempty a P).
      rewrite (list_element_k f _ _ _ a p'); [|apply SA|].
      + destruct HR as [->|(t & -> & HT)].
        * destruct p'; [destruct f; [lia|reflexivity]|discriminate].
        * destruct p' as [|c p']; [destruct f; [lia|reflexivity]|].
          cbn [app] in E'. injection E' as <- E'. cbn [length] in L. destruct f as [|f]; [lia|].
          rewrite list_white_k. apply (HT p' q); [exact E'|lia].
      + apply whole; [exact P| |rewrite app_length; lia].
        destruct HR as [->|(t & -> & _)].
        * destruct p'; [exact I|discriminate].
        * destruct p' as [|c p']; [exact I|]. cbn [app] in E'. injection E' as <- _. apply end32.
  Qed.

  Lemma unfinished_cells a d : printable a -> printable d -> cut_ok a -> cut_ok d ->
    unfinished (print_cells m (SCons a d)).
  Proof.
    intros PA PD CA (AD & HD & CD).
    assert (DOT : print_cells m (SCons a d) = print_val m a ++ [32; 46; 32] ++ print_val m d ->
      unfinished (print_cells m (SCons a d))).
    { intros ->. apply unfinished_step; auto. right. eexists. split; [reflexivity|].
      intros p q f e E L. destruct f as [|f]; [lia|].
      destruct p as [|c p]; [reflexivity|]. cbn [app] in E. injection E as <- E.
      destruct p as [|c p]; [reflexivity|]. cbn [app] in E. injection E as <- E. cbn [length] in L.
      change (read_list_k (S f) (46 :: 32 :: p) (a :: e) SNil) with
        (match readl_k f (32 :: p) with KOk v t' => read_list_k f t' (a :: e) v | r => r end).
      destruct f as [|f]; [lia|]. change (readl_k (S f) (32 :: p)) with (readl_k f p).
      destruct (AD p q f E ltac:(lia)) as [->|(v & ->)]; reflexivity. }
    destruct d; try (apply DOT; reflexivity).
    - change (print_cells m (SCons a SNil)) with (print_val m a). rewrite <- (app_nil_r (print_val m a)).
      apply unfinished_step; auto.
    - change (print_cells m (SCons a (SCons d1 d2))) with (print_val m a ++ [32] ++ print_cells m (SCons d1 d2)).
      apply unfinished_step; auto. right. eexists. split; [reflexivity|]. intros p q f e E L.
      exact (CD p q f (a :: e) SNil E L).
  Qed.

  (** What stands between an opening and a closing bracket *)
  Lemma inside text z p q : unfinished text -> text ++ [z] = p ++ q -> q <> [] ->
    forall f e tl, (2 * length p + 2 <= f)%nat -> read_list_k f p e tl = KEnd.
  Proof.
    intros U E NQ f e tl L. destruct (app_split _ _ _ _ E) as [(x & _ & ->)|(p' & -> & E')].
    - apply (U p x); [reflexivity|exact L].
    - destruct p' as [|y p'].
      + rewrite app_nil_r in *. apply (U text []); [symmetry; apply app_nil_r|exact L].
      + cbn [app] in E'. injection E' as _ E'. symmetry in E'. apply app_eq_nil in E'. tauto.
  Qed.

  Scheme plain_mind := Minimality for plain_data Sort Prop
    with all_plain_mind := Minimality for all_plain Sort Prop.

  Lemma token_any v l : printable v -> print_val m v = flat l -> Forall tok_ok l ->
    (exists c t, print_val m v = c :: t /\ delim c = false /\ c <> 63 /\ c <> 35 /\ starts_ok (c :: t)) ->
    any v /\ hd 0 (print_val m v) <> 35.
  Proof.
    intros P E F (c & t & E2 & D & N1 & N2 & S). split; [|rewrite E2; exact N2].
    apply any_of; [exact P|]. intros p q f Ep NQ NP L. destruct f as [|f]; [lia|].
    destruct p as [|x p]; [congruence|].
    assert (x = c) by (rewrite E2 in Ep; cbn [app] in Ep; congruence). subst x.
    apply readl_identifier_k; auto. apply (symbol_prefix l _ q); [exact F|rewrite <- E; exact Ep|discriminate].
  Qed.

  Lemma plain_cut : forall v, plain_data v -> printable v -> cut_ok v.
  Proof.
    apply (plain_mind (fun v => printable v -> cut_ok v) (fun l => printables l -> unfinished (print_vec m l))).
    - intros P. split; [|split; [discriminate|exact I]]. apply any_of; [exact P|].
      intros p q f E NQ NP L. destruct p as [|c p]; [congruence|]. change (print_val m SNil) with [40; 41] in E.
      cbn [app] in E. injection E as <- E. destruct p as [|c p].
      + left. cbn [length] in L. destruct f as [|[|f]]; [lia|lia|reflexivity].
      + cbn [app] in E. injection E as _ E. symmetry in E. apply app_eq_nil in E. tauto.
    - intros n P. assert (C : canonical n) by (inversion P; auto).
      assert (H : any (SNum n) /\ hd 0 (print_val m (SNum n)) <> 35).
      { apply (token_any _ (toks_plain (print_num n))); [exact P|symmetry; apply flat_plain|apply plain_toks_ok, num_plain, C|].
        destruct (printed_num_start n [] C) as (c & t & E & H). rewrite app_nil_r in E. exists c, t. split; [exact E|exact H]. }
      split; [apply H|split; [apply H|exact I]].
    - intros s P. assert (B : Forall byte s) by (inversion P; auto). split; [|split; [discriminate|exact I]].
      apply any_of; [exact P|]. intros p q f E NQ NP L. destruct f; [lia|]. left. apply (string_prefix m s p q); auto.
    - intros n P. assert (C : good_name n) by (inversion P; auto).
      assert (H : any (SSym n) /\ hd 0 (print_val m (SSym n)) <> 35).
      { destruct C as (NE & L & B & REST). destruct (printed_symbol n NE B) as (l & El & _ & OK & _).
        apply (token_any _ l); [exact P|exact El|exact OK|].
        destruct (printed_symbol_start n [] (conj NE (conj L (conj B REST)))) as (c & t & E & H). rewrite app_nil_r in E.
        exists c, t. split; [exact E|exact H]. }
      split; [apply H|split; [apply H|exact I]].
    - intros a d _ IA _ ID P. inversion P; subst.
      assert (U : unfinished (print_cells m (SCons a d))) by (apply unfinished_cells; auto).
      split; [|split; [rewrite print_cons; discriminate|exact U]].
      apply any_of; [exact P|]. intros p q f E NQ NP L. rewrite print_cons in E.
      destruct p as [|c p]; [congruence|]. cbn [app] in E. injection E as <- E. cbn [length] in L.
      destruct f as [|f]; [lia|]. left. change (readl_k (S f) (40 :: p)) with (read_list_k f p [] SNil).
      apply (inside _ _ _ _ U E NQ). lia.
    - intros l _ IH P. inversion P; subst. specialize (IH H0).
      split; [|split; [rewrite print_vector; discriminate|exact I]].
      apply any_of; [exact P|]. intros p q f E NQ NP L. rewrite print_vector in E.
      destruct p as [|c p]; [congruence|]. cbn [app] in E. injection E as <- E. cbn [length] in L.
      destruct f as [|f]; [lia|]. left.
      change (readl_k (S f) (91 :: p)) with (rk_map (fun l => SVec (elements l)) (read_list_k f p [] SNil)).
      rewrite (inside _ _ _ _ IH E NQ) by lia. reflexivity.
    - intros _ p q f e tl E L. destruct p; [|discriminate]. destruct f; [lia|reflexivity].
    - intros a l _ IA _ IL P. inversion P; subst. destruct l as [|b l].
      + change (print_vec m [a]) with (print_val m a). rewrite <- (app_nil_r (print_val m a)). apply unfinished_step; auto.
      + change (print_vec m (a :: b :: l)) with (print_val m a ++ [32] ++ print_vec m (b :: l)).
        apply unfinished_step; auto. right. eexists. split; [reflexivity|]. intros p q f e E L.
        exact (IL H2 p q f (a :: e) SNil E L).
  Qed.

  (** ** Messages *)

  Lemma message_head v : message v -> exists t, send m v = 40 :: t.
  Proof. intros (_ & _ & a & d & ->). unfold send. rewrite print_cons. eexists. reflexivity. Qed.

  Lemma read_message v rest : message v -> token_end rest -> read_k (send m v ++ rest) = KOk v rest.
  Proof. intros (P & _) T. unfold read_k, send. apply whole; [exact P|exact T|lia]. Qed.

  Lemma read_cut v p q : message v -> send m v = p ++ q -> q <> [] -> read_k p = KEnd.
  Proof.
    intros (P & D & a & d & ->) E NQ. destruct (plain_cut _ D P) as (_ & _ & U).
    destruct p as [|c p]; [reflexivity|]. unfold send in E. rewrite print_cons in E. cbn [app] in E. injection E as <- E.
    unfold read_k. cbn [length].
    replace (2 * S (length p) + 1)%nat with (S (2 * length p + 2)) by lia.
    change (readl_k (S (2 * length p + 2)) (40 :: p)) with (read_list_k (2 * length p + 2) p [] SNil).
    apply (inside _ _ _ _ U E NQ). lia.
  Qed.
End Prefix.

(** ** The handler *)
Section Handler.
  Variable m : escape.
  Variable during : list sexp -> nat.
  Notation sent := (fun ms => concat (map (send m) ms)).

  Definition size (s : conn) : nat := (length (pending_data s) + length (concat (net s)) + length (net s))%nat.
  (** The messages ms and the text q are still to come. *)
  Definition to_come (ms : list sexp) (q : list Z) (s : conn) : Prop :=
    Forall message ms /\ pending_data s ++ concat (net s) ++ q = sent ms.
  (** After handling: some of the messages are done. *)
  Definition went (ms : list sexp) (q : list Z) (s s' : conn) : Prop :=
    exists dn ms' n0, ms = dn ++ ms' /\ dispatched s' = rev dn ++ dispatched s /\ to_come ms' q s' /\
      net s = n0 ++ net s'.

  Lemma went_refl ms q s : to_come ms q s -> went ms q s s.
  Proof. intros T. exists [], ms, []. repeat split; auto; apply T. Qed.
  Lemma went_trans ms q s s1 s2 : went ms q s s1 ->
    (forall ms', to_come ms' q s1 -> went ms' q s1 s2) -> went ms q s s2.
  Proof.
    intros (dn & ms' & n0 & -> & D & T & N) H. destruct (H ms' T) as (dn2 & ms2 & n2 & -> & D2 & T2 & N2).
    exists (dn ++ dn2), ms2, (n0 ++ n2). rewrite rev_app_distr, <- !app_assoc. split; [reflexivity|].
    split; [rewrite D2, D; reflexivity|]. split; [exact T2|]. rewrite N, N2. reflexivity.
  Qed.
  Lemma went_size ms q s s' : to_come ms q s -> went ms q s s' -> (size s' <= size s)%nat.
  Proof.
    intros (_ & T) (dn & ms' & n0 & -> & _ & (_ & T') & N). unfold size.
    rewrite map_app, concat_app, <- T' in T. apply (f_equal (@length Z)) in T. rewrite !app_length in T.
    apply (f_equal (@length (list Z))) in N. rewrite app_length in N. lia.
  Qed.

  Lemma sent_start ms p q : Forall message ms -> sent ms = p ++ q -> token_end p.
  Proof.
    intros F E. destruct p as [|c p]; [exact I|]. destruct F as [|v ms V F]; [discriminate|].
    cbn [map concat] in E. destruct (message_head m v V) as (t & Et). rewrite Et in E. cbn [app] in E.
    injection E as <- _. cbn. tauto.
  Qed.

  Definition served (L : conn -> res) (n : nat) : Prop := forall s ms q, to_come ms q s -> (size s < n)%nat ->
    exists s', L s = Done s' /\ went ms q s s' /\ read_k (pending_data s') = KEnd.

  Lemma deliver_served L n : served L n -> forall k s ms q, to_come ms q s -> (size s <= n)%nat ->
    exists s', deliver L k s = Done s' /\ went ms q s s' /\
      (read_k (pending_data s) = KEnd -> read_k (pending_data s') = KEnd) /\
      (length (net s) <= k -> net s' = [])%nat.
  Proof.
    intros HL. induction k as [|k IH]; intros s ms q T SZ.
    { exists s. split; [reflexivity|]. split; [apply went_refl, T|]. split; [auto|].
      intros Z. destruct (net s); [reflexivity|cbn [length] in Z; lia]. }
    cbn [deliver]. destruct (net s) as [|c net'] eqn:EN.
    { exists s. split; [reflexivity|]. split; [apply went_refl, T|]. split; [auto|]. intros _. exact EN. }
    set (s1 := mkconn net' (pending_data s ++ c) (dispatched s)).
    assert (T1 : to_come ms q s1).
    { destruct T as (F & T). split; [exact F|]. rewrite EN in T. cbn [concat] in T. unfold s1. cbn [pending_data net].
      rewrite <- T, <- !app_assoc. reflexivity. }
    assert (S1 : (size s1 < n)%nat).
    { unfold size in *. rewrite EN in SZ. unfold s1. cbn [pending_data net concat length] in *. rewrite app_length in *. lia. }
    assert (W1 : went ms q s s1).
    { exists [], ms, [c]. repeat split; auto; try apply T1. }
    destruct (HL s1 ms q T1 S1) as (s2 & -> & W2 & K2).
    assert (W : went ms q s s2).
    { destruct W2 as (dn & ms' & n0 & E & D & T2 & N). exists dn, ms', (c :: n0). split; [exact E|]. split; [exact D|].
      split; [exact T2|]. rewrite EN. cbn [app]. f_equal. exact N. }
    destruct W as (dn & ms' & n0 & E & D & T2 & N).
    assert (S2 : (size s2 <= n)%nat) by (pose proof (went_size ms q s1 s2 T1 W2); lia).
    destruct (IH s2 ms' q T2 S2) as (s3 & -> & W3 & K3 & N3).
    exists s3. split; [reflexivity|]. split; [|split; [intros _; apply K3, K2|]].
    - destruct W3 as (dn3 & ms3 & n3 & E3 & D3 & T3 & N3'). exists (dn ++ dn3), ms3, (n0 ++ n3).
      rewrite rev_app_distr, <- !app_assoc. split; [rewrite <- E3; exact E|]. split; [rewrite D3, D; reflexivity|].
      split; [exact T3|]. rewrite N, N3'. reflexivity.
    - intros LN. apply N3. destruct W2 as (_ & _ & n2 & _ & _ & _ & N2). unfold s1 in N2. cbn [net] in N2.
      apply (f_equal (@length (list Z))) in N2. rewrite app_length in N2. cbn [length] in LN. lia.
  Qed.

  Lemma loop_served : forall n, served (loop during n) n.
  Proof.
    induction n as [|n IH]; intros s ms q T SZ; [lia|]. cbn [loop].
    destruct T as (F & T). pose proof (conj F T : to_come ms q s) as T0.
    destruct F as [|v ms V F].
    { cbn [map concat] in T. apply app_eq_nil in T. destruct T as (-> & _).
      assert (K : read_k [] = KEnd) by reflexivity. rewrite K. exists s. split; [reflexivity|]. split; [apply went_refl, T0|].
      destruct T0 as (_ & T0). cbn [map concat] in T0. apply app_eq_nil in T0. destruct T0 as (-> & _). reflexivity. }
    cbn [map concat] in T. symmetry in T. destruct (app_split _ _ _ _ T) as [(x & N & EX)|(p' & EP & E')].
    { pose proof (read_cut m v _ x V EX N) as K. rewrite K. exists s. split; [reflexivity|]. split; [apply went_refl, T0|exact K]. }
    rewrite EP, (read_message m v p' V (sent_start ms p' _ F E')). cbn [dispatched].
    set (s1 := mkconn (net s) p' (v :: dispatched s)).
    assert (T1 : to_come ms q s1) by (split; [exact F|symmetry; exact E']).
    assert (S1 : (size s1 < n)%nat).
    { unfold size in *. unfold s1. cbn [pending_data net]. rewrite EP, app_length in SZ.
      destruct (message_head m v V) as (t & Et). rewrite Et in SZ. cbn [length] in SZ. lia. }
    destruct (deliver_served _ n IH (during (v :: dispatched s)) s1 ms q T1 ltac:(lia)) as (s2 & E2 & W2 & _ & _).
    rewrite E2. pose proof (went_size ms q s1 s2 T1 W2) as S2.
    destruct W2 as (dn & ms' & n0 & E & D & T2 & N).
    destruct (IH s2 ms' q T2 ltac:(lia)) as (s3 & -> & W3 & K3). exists s3. split; [reflexivity|]. split; [|exact K3].
    destruct W3 as (dn3 & ms3 & n3 & E3 & D3 & T3 & N3). exists (v :: dn ++ dn3), ms3, (n0 ++ n3).
    split; [cbn [app]; rewrite <- app_assoc, <- E3, <- E; reflexivity|].
    split; [rewrite D3, D; unfold s1; cbn [dispatched rev]; rewrite rev_app_distr, <- !app_assoc; reflexivity|].
    split; [exact T3|]. unfold s1 in N. cbn [net] in N. rewrite N, N3, app_assoc. reflexivity.
  Qed.

  Lemma connection_served ms pieces q fuel : Forall message ms -> concat pieces ++ q = sent ms ->
    (length (concat pieces) + length pieces <= fuel)%nat ->
    exists dn ms' p, ms = dn ++ ms' /\ connection during fuel pieces = Done (mkconn [] p (rev dn)) /\
      p ++ q = sent ms' /\ (forall v r, ms' = v :: r -> exists x, x <> [] /\ send m v = p ++ x).
  Proof.
    intros F E L. unfold connection. set (s0 := mkconn pieces [] []).
    assert (T : to_come ms q s0) by (split; [exact F|exact E]).
    destruct (deliver_served _ fuel (loop_served fuel) (length pieces) s0 ms q T ltac:(unfold size, s0; cbn [pending_data net length]; lia))
      as (s' & -> & (dn & ms' & n0 & -> & D & (F' & T') & _) & K & N).
    specialize (K eq_refl). specialize (N (le_n _)). destruct s' as [nt p ds]. cbn [pending_data net dispatched] in *. subst nt.
    unfold s0 in D. cbn [dispatched] in D. rewrite app_nil_r in D. subst ds. exists dn, ms', p. split; [reflexivity|].
    split; [reflexivity|]. cbn [concat app] in T'. split; [exact T'|]. intros v r ->.
    cbn [map concat] in T'. symmetry in T'. destruct (app_split _ _ _ _ T') as [H|(p' & -> & E')]; [exact H|].
    inversion F'; subst. rewrite (read_message m v p' H1 (sent_start r p' _ H2 E')) in K. discriminate.
  Qed.
End Handler.
