(** Proofs about the reader and printer. *)
From Coq Require Import ZArith QArith Qreduction List Bool Lia ZifyBool Arith.
From Verif Require Import Numbers_Model Numbers_Spec Numbers_Proofs Reader_Model Reader_Spec.
Import ListNotations.
Open Scope Z_scope.

(** ** Strings *)

Lemma one_of_In : forall c l, one_of c l = true <-> In c l.
Proof.
  intros c l. unfold one_of. rewrite existsb_exists. split.
  - intros (x & I & E). apply Z.eqb_eq in E. subst; auto.
  - intros I. exists c. split; [auto|apply Z.eqb_refl].
Qed.

Lemma wrap8_mod : forall x, wrap 8 x mod 256 = x mod 256.
Proof.
  intros x. unfold wrap. change (2 ^ 8) with 256. change (2 ^ (8 - 1)) with 128.
  rewrite Zminus_mod_idemp_l. f_equal. lia.
Qed.

Lemma wrap8_small : forall x, -128 <= x < 128 -> wrap 8 x = x.
Proof.
  intros x H. unfold wrap. change (2 ^ 8) with 256. change (2 ^ (8 - 1)) with 128.
  rewrite Z.mod_small; lia.
Qed.

Lemma str_char : forall m c fuel t acc, byte c ->
  str_loop (S fuel) (print_char m c ++ t) acc = str_loop fuel t (c :: acc).
Proof.
  intros m c fuel t acc B. unfold byte in B. unfold print_char.
  set (ea := match m with EscAll => true | _ => false end).
  set (en := match m with EscNone => false | _ => true end).
  destruct (ea && ((c <? 32) || (126 <? c))).
  - assert (D : 0 <= c / 64 < 4 /\ c = 64 * (c / 64) + c mod 64 /\ 0 <= c mod 64 < 64).
    { pose proof (Z.div_mod c 64). pose proof (Z.mod_pos_bound c 64). lia. }
    assert (D2 : 0 <= (c mod 64) / 8 < 8 /\ c mod 64 = 8 * ((c mod 64) / 8) + c mod 8 /\ 0 <= c mod 8 < 8).
    { pose proof (Z.div_mod (c mod 64) 8). pose proof (Z.mod_pos_bound (c mod 64) 8).
      assert (E : (c mod 64) mod 8 = c mod 8).
      { apply Z.mod_unique with (c / 64 * 8 + (c mod 64) / 8); lia. }
      lia. }
    revert D D2. generalize (c / 64) (c mod 64). intros q r. generalize (r / 8) (c mod 8). intros a b D D2.
    cbn [app str_loop]. change (92 =? 34) with false. change (92 =? 92) with true. cbv iota.
    destruct (48 + q =? 10) eqn:?; [lia|].
    assert (O : forall x, 0 <= x < 8 -> is_octal (48 + x) = true) by (intros; unfold is_octal; lia).
    unfold read_esc.
    destruct (48 + q =? 110) eqn:?; [lia|]. destruct (48 + q =? 114) eqn:?; [lia|].
    destruct (48 + q =? 102) eqn:?; [lia|]. destruct (48 + q =? 116) eqn:?; [lia|].
    destruct (48 + q =? 118) eqn:?; [lia|]. destruct (48 + q =? 97) eqn:?; [lia|].
    destruct (48 + q =? 94) eqn:?; [lia|].
    rewrite !O by lia. f_equal. f_equal.
    rewrite wrap8_mod, (wrap8_small ((48 + q - 48) * 8 + (48 + a - 48))) by lia.
    replace (((48 + q - 48) * 8 + (48 + a - 48)) * 8 + (48 + b - 48)) with c by lia.
    apply Z.mod_small. lia.
  - destruct (one_of c [9; 10; 13; 12]) eqn:W.
    + apply one_of_In in W. simpl in W.
      assert (N34 : (c =? 34) = false) by lia. assert (N92 : (c =? 92) = false) by lia.
      destruct en; cbn [negb].
      * destruct W as [<-|[<-|[<-|[<-|[]]]]]; reflexivity.
      * cbn [app str_loop]. rewrite N34, N92. reflexivity.
    + clear W. destruct (c =? 92) eqn:E92; [replace c with 92 by lia; reflexivity|].
      destruct (c =? 34) eqn:E34; [replace c with 34 by lia; reflexivity|].
      cbn [app str_loop]. rewrite E34, E92. reflexivity.
Qed.

Lemma print_char_length : forall m c, (1 <= length (print_char m c))%nat.
Proof.
  intros m c. unfold print_char.
  repeat match goal with |- context [if ?b then _ else _] => destruct b end; simpl; lia.
Qed.

Lemma str_chars : forall m s fuel t acc, Forall byte s -> (length s < fuel)%nat ->
  str_loop fuel (concat (map (print_char m) s) ++ 34 :: t) acc = ROk (rev acc ++ s) t.
Proof.
  induction s as [|c s IH]; intros fuel t acc B F; (destruct fuel as [|fuel]; [simpl in F; lia|]).
  - cbn. now rewrite app_nil_r.
  - inversion B; subst. cbn [map concat]. rewrite <- app_assoc, str_char by auto.
    rewrite IH; [|auto|simpl in F; lia]. simpl. now rewrite <- app_assoc.
Qed.

Lemma concat_length : forall m s, (length s <= length (concat (map (print_char m) s)))%nat.
Proof.
  induction s as [|c s IH]; simpl; [lia|]. rewrite app_length. pose proof (print_char_length m c). lia.
Qed.

Lemma print_read_str : forall m s rest, Forall byte s ->
  read_str (tl (print_string m s) ++ rest) = ROk (SStr s) rest.
Proof.
  intros m s rest B. unfold print_string, read_str. cbn [app tl].
  rewrite <- app_assoc. cbn [app]. rewrite str_chars; [reflexivity|auto|].
  rewrite app_length. pose proof (concat_length m s). simpl. lia.
Qed.

Lemma print_string_head : forall m s rest,
  print_string m s ++ rest = 34 :: tl (print_string m s) ++ rest.
Proof. reflexivity. Qed.

Lemma octal_bounds : forall c, byte c ->
  0 <= c / 64 < 4 /\ 0 <= c mod 64 / 8 < 8 /\ 0 <= c mod 8 < 8.
Proof.
  intros c B. unfold byte in B.
  pose proof (Z.div_mod c 64 ltac:(lia)). pose proof (Z.mod_pos_bound c 64 ltac:(lia)).
  pose proof (Z.div_mod (c mod 64) 8 ltac:(lia)). pose proof (Z.mod_pos_bound (c mod 64) 8 ltac:(lia)).
  pose proof (Z.mod_pos_bound c 8 ltac:(lia)). lia.
Qed.

Lemma escape_all_ascii : forall s, Forall byte s -> Forall ascii_printing (print_string EscAll s).
Proof.
  assert (Q : ascii_printing 34) by (unfold ascii_printing; lia).
  intros s B. unfold print_string. constructor; [auto|]. apply Forall_app. split; [|auto].
  apply Forall_forall. intros x I. apply in_concat in I. destruct I as (l & I & J).
  apply in_map_iff in I. destruct I as (c & <- & I).
  rewrite Forall_forall in B. specialize (B c I). unfold byte in B.
  unfold print_char in J. cbn [andb negb] in J. unfold ascii_printing.
  destruct ((c <? 32) || (126 <? c)) eqn:E.
  - pose proof (octal_bounds c B) as OB. revert OB J.
    generalize (c / 64) (c mod 64 / 8) (c mod 8). intros q a b OB J. cbn [In] in J. lia.
  - repeat match type of J with context [if ?b then _ else _] => destruct b eqn:? end;
      simpl in J; lia.
Qed.

Lemma newlines_escaped : forall m s, m <> EscNone -> Forall byte s ->
  Forall (fun c => ~ In c [9; 10; 12; 13]) (print_string m s).
Proof.
  assert (Q : ~ In 34 [9; 10; 12; 13]) by (simpl; lia).
  intros m s M B. unfold print_string. constructor; [auto|]. apply Forall_app. split; [|auto].
  apply Forall_forall. intros x I. apply in_concat in I. destruct I as (l & I & J).
  apply in_map_iff in I. destruct I as (c & <- & I).
  rewrite Forall_forall in B. specialize (B c I). clear I.
  unfold print_char in J. destruct m; [congruence| |]; cbn [andb negb] in J.
  - destruct (one_of c [9; 10; 13; 12]) eqn:W.
    + repeat match type of J with context [if ?b then _ else _] => destruct b eqn:? end; simpl in *; lia.
    + assert (N : ~ In c [9; 10; 13; 12]) by (rewrite <- one_of_In; congruence).
      simpl in N.
      repeat match type of J with context [if ?b then _ else _] => destruct b eqn:? end; simpl in *; lia.
  - destruct ((c <? 32) || (126 <? c)) eqn:E.
    + pose proof (octal_bounds c B) as OB. revert OB J.
      generalize (c / 64) (c mod 64 / 8) (c mod 8). intros q a b OB J. cbn [In] in J |- *. lia.
    + repeat match type of J with context [if ?b then _ else _] => destruct b eqn:? end; simpl in *; lia.
Qed.

(** ** Progress and termination of the reader *)

Lemma read_hex_length : forall t c, (length (snd (read_hex t c)) <= length t)%nat.
Proof.
  induction t as [|d t IH]; intros c; cbn [read_hex]; [simpl; lia|].
  destruct (is_xdigit d); [|simpl; lia]. etransitivity; [apply IH|]. simpl; lia.
Qed.

Lemma read_esc_length : forall c t, (length (snd (read_esc (c :: t))) <= length t)%nat.
Proof.
  intros c t. unfold read_esc.
  repeat match goal with
  | |- context [match ?b with true => _ | false => _ end] => destruct b; try (simpl; lia)
  | |- context [match ?l with [] => _ | _ :: _ => _ end] => destruct l; try (simpl; lia)
  end.
  apply read_hex_length.
Qed.

Lemma str_loop_total : forall fuel text acc, (length text < fuel)%nat ->
  match str_loop fuel text acc with
  | ROk _ t => (length t < length text)%nat
  | RErr => True
  | RFuel => False
  end.
Proof.
  induction fuel as [|fuel IH]; intros text acc F; [lia|].
  destruct text as [|c t]; cbn [str_loop]; [exact I|]. simpl in F.
  destruct (c =? 34); [simpl; lia|].
  destruct (c =? 92).
  - destruct t as [|d t']; [exact I|]. simpl in F. destruct (d =? 10).
    + specialize (IH t' acc ltac:(lia)). destruct (str_loop fuel t' acc); simpl; auto; lia.
    + pose proof (read_esc_length d t') as L. destruct (read_esc (d :: t')) as [b t'']. simpl in L.
      specialize (IH t'' (b mod 256 :: acc) ltac:(lia)).
      destruct (str_loop fuel t'' (b mod 256 :: acc)); simpl; auto; lia.
  - specialize (IH t (c :: acc) ltac:(lia)). destruct (str_loop fuel t (c :: acc)); simpl; auto; lia.
Qed.

Lemma read_str_total : forall text,
  match read_str text with ROk _ t => (length t < length text)%nat | RErr => True | RFuel => False end.
Proof.
  intros text. unfold read_str. pose proof (str_loop_total (S (length text)) text [] ltac:(lia)) as H.
  destruct (str_loop (S (length text)) text []); auto.
Qed.

(** what a call of sym_loop does: no budget, text never grows, and something is
    consumed if the name grows *)
Lemma sym_loop_total : forall n text bl i buf s bar, (length text <= n)%nat ->
  match sym_loop text bl i buf s bar with
  | ROk (b, _) t => (length t <= length text)%nat /\
                    (length t = length text -> b = rev buf)
  | RErr => True
  | RFuel => False
  end.
Proof.
  induction n as [|n IH]; intros text bl i buf s bar L.
  - destruct text; [|simpl in L; lia]. cbn. destruct bar; auto.
  - destruct text as [|c t]; [cbn; destruct bar; auto|]. simpl in L.
    assert (STEP : forall tx bl i buf' s bar, (length tx <= length t)%nat ->
      match sym_loop tx bl i buf' s bar with
      | ROk (b, _) t' => (length t' <= length (c :: t))%nat /\
                         (length t' = length (c :: t) -> b = rev buf)
      | RErr => True
      | RFuel => False
      end).
    { intros tx bl0 i0 buf' s0 bar0 K. specialize (IH tx bl0 i0 buf' s0 bar0 ltac:(lia)).
      destruct (sym_loop tx bl0 i0 buf' s0 bar0) as [[b s'] t'| |]; auto.
      destruct IH as [A _]. simpl. split; [lia|]. intros; lia. }
    cbn [sym_loop].
    destruct bar.
    + destruct (c =? 124); [apply STEP; lia|]. destruct (Nat.ltb i bl); apply STEP; lia.
    + set (bl' := if Nat.eqb i bl then (bl * 2)%nat else bl).
      destruct (delim c); [auto|].
      destruct ((c =? 35) && (radix s =? 0)); [auto|].
      destruct (c =? 92).
      * destruct t as [|d t']; [exact I|]. apply STEP. simpl. lia.
      * destruct (c =? 124); apply STEP; lia.
Qed.

Lemma read_symbol_total : forall text,
  match read_symbol text with ROk _ t => (length t < length text)%nat | RErr => True | RFuel => False end.
Proof.
  intros text. unfold read_symbol.
  pose proof (sym_loop_total (length text) text start_buflen 0 [] n_start false ltac:(lia)) as H.
  destruct (sym_loop text start_buflen 0 [] n_start false) as [[b s] t| |]; auto.
  destruct H as [A B]. destruct b as [|x b]; [simpl; auto|].
  destruct (symbol_or_number (x :: b) s _); [|exact I].
  destruct (Nat.eq_dec (length t) (length text)) as [E|E]; [|lia]. apply B in E. discriminate.
Qed.

Lemma skip_line_length : forall t, (length (skip_line t) <= length t)%nat.
Proof.
  induction t as [|c t IH]; cbn [skip_line]; [lia|]. destruct (one_of c [10; 12; 13]); simpl; lia.
Qed.

Lemma read_comment_length : forall n term text d t, (length text <= n)%nat ->
  read_comment term text d = Some t -> (length t < length text)%nat.
Proof.
  induction n as [|n IH]; intros term text d t L H.
  - destruct text; [discriminate|simpl in L; lia].
  - destruct text as [|c tx]; [discriminate|]. simpl in L. cbn [read_comment] in H.
    destruct (c =? term).
    + destruct tx as [|c2 tx']; [discriminate|]. destruct (c2 =? 35).
      * destruct (d - 1 =? 0); [inversion H; subst; simpl; lia|].
        apply IH in H; simpl in *; lia.
      * apply IH in H; simpl in *; lia.
    + destruct (c =? 35).
      * destruct tx as [|c2 tx']; [discriminate|]. destruct (c2 =? term); apply IH in H; simpl in *; lia.
      * apply IH in H; simpl in *; lia.
Qed.

Lemma skip_chars_total : forall str ret text,
  match skip_chars str ret text with ROk _ t => (length t <= length text)%nat | RErr => True | RFuel => False end.
Proof.
  induction str as [|x str IH]; intros ret [|c t]; cbn [skip_chars]; auto.
  - destruct (delim c); auto.
  - destruct (c =? x); [|exact I]. specialize (IH ret t). destruct (skip_chars str ret t); simpl; auto.
Qed.

Lemma match_name_total : forall p text v,
  match match_name p text v with ROk _ t => (length t <= length text)%nat | RErr => True | RFuel => False end.
Proof.
  induction p as [|x p IH]; intros [|c t] v; cbn [match_name]; auto.
  destruct (tolower c =? x); [|exact I]. specialize (IH t v). destruct (match_name p t v); simpl; auto.
Qed.

Lemma read_char_name_total : forall text,
  match read_char_name text with ROk _ t => (length t <= length text)%nat | RErr => True | RFuel => False end.
Proof.
  intros [|c t]; cbn [read_char_name]; auto.
  destruct (negb (is_alpha c)); [simpl; lia|]. destruct t as [|c2 t']; [simpl; lia|].
  destruct (negb (is_alpha c2)); [simpl; lia|].
  match goal with |- context [find ?f ?l] => destruct (find f l) as [[nm v]|] end; [|exact I].
  pose proof (match_name_total (skipn 2 nm) t' v) as H. destruct (match_name (skipn 2 nm) t' v); auto.
  simpl; lia.
Qed.

Definition fine {A} (n : nat) (r : rd A) : Prop :=
  match r with ROk _ t => (length t <= n)%nat | RErr => True | RFuel => False end.
Lemma fine_map : forall A B (f : A -> B) n r, fine n r -> fine n (rd_map f r).
Proof. intros A B f n [a t| |]; auto. Qed.
Lemma fine_le : forall A n m (r : rd A), (n <= m)%nat -> fine n r -> fine m r.
Proof. intros A n m [a t| |] L H; simpl in *; auto. lia. Qed.
Lemma fine_lt : forall A (r : rd A) n,
  match r with ROk _ t => (length t < S n)%nat | RErr => True | RFuel => False end -> fine n r.
Proof. intros A [a t| |] n H; simpl in *; auto. lia. Qed.

Lemma reader_total : forall f,
  (forall c t, (2 * length t + 3 <= f)%nat -> fine (length t) (readl f (c :: t))) /\
  (forall text elems tail, (2 * length text + 2 <= f)%nat -> fine (length text) (read_list f text elems tail)).
Proof.
  induction f as [|f [IHr IHl]]; [split; intros; lia|].
  assert (R : forall text, (2 * length text + 1 <= f)%nat -> fine (length text - 1) (readl f text)).
  { intros [|c t] L; [destruct f; [simpl in L; lia|exact I]|]. simpl in L. simpl Nat.sub.
    rewrite Nat.sub_0_r. apply IHr. lia. }
  split.
  - intros c t L. cbn [readl].
    assert (ID : forall text', (length text' <= S (length t))%nat -> fine (length t)
      (match read_symbol text' with
        | ROk form (x :: t') =>
          if (x =? 35) && match form with SSym _ | SNew _ => true | _ => false end then
            match read_symbol t' with
            | ROk var t'' => ROk (list3 (SSym sym_structure_ref) form var) t''
            | r => r
            end
          else ROk form (x :: t')
        | r => r
        end)).
    { intros text' K. pose proof (read_symbol_total text') as H.
      destruct (read_symbol text') as [form tx| |]; simpl; auto.
      assert (F : fine (length t) (ROk form tx)) by (simpl; lia).
      destruct tx as [|x tx]; auto.
      assert (G : fine (length t) (match read_symbol tx with
            | ROk var t'' => ROk (list3 (SSym sym_structure_ref) form var) t''
            | r => r
            end)).
      { pose proof (read_symbol_total tx) as H2. destruct (read_symbol tx); simpl in *; auto. lia. }
      destruct ((x =? 35) && _); auto. }
    destruct (white c). { apply fine_le with (length t - 1)%nat; [lia|]. apply R. lia. }
    destruct (c =? 59).
    { pose proof (skip_line_length t). eapply fine_le; [|apply R]; lia. }
    destruct (c =? 40). { apply IHl; lia. }
    destruct (c =? 39). { apply fine_map. eapply fine_le; [|apply R]; lia. }
    destruct (c =? 96). { apply fine_map. eapply fine_le; [|apply R]; lia. }
    destruct (c =? 44).
    { assert (D : forall t', (length t' <= length t)%nat -> forall g : sexp -> sexp, fine (length t) (rd_map g (readl f t'))).
      { intros t' K g. apply fine_map. eapply fine_le; [|apply R]; lia. }
      destruct t as [|x t']; [exact I|]. destruct (x =? 64); apply D; simpl; lia. }
    destruct (c =? 91). { apply fine_map. apply IHl; lia. }
    destruct (c =? 34). { pose proof (read_str_total t) as H. destruct (read_str t); simpl in *; auto; lia. }
    destruct (c =? 63).
    { destruct t as [|d t']; [exact I|].
      destruct (d =? 92); [|simpl; lia].
      destruct t' as [|e t'']; [exact I|]. pose proof (read_esc_length e t'') as E.
      destruct (read_esc (e :: t'')) as [v tt]. simpl in *. lia. }
    destruct (c =? 35).
    { destruct t as [|d t']; [exact I|]. simpl in L.
      assert (IDC := ID (c :: d :: t') ltac:(simpl; lia)). clear ID.
      destruct (d =? 39). { apply fine_map. eapply fine_le; [|apply R]; simpl; lia. }
      destruct (d =? 91).
      { specialize (IHl t' [] SNil ltac:(lia)). destruct (read_list f t' [] SNil); simpl in *; auto.
        destruct (compiled_ok (elements a)); simpl; auto. }
      destruct (d =? 40). { apply fine_map. eapply fine_le; [|apply IHl]; simpl; lia. }
      destruct (d =? 124).
      { destruct (read_comment 124 t' 1) eqn:E; [|exact I]. apply read_comment_length with (n := length t') in E; [|lia].
        eapply fine_le; [|apply R]; simpl; lia. }
      destruct (d =? 92).
      { pose proof (read_char_name_total t') as H. destruct (read_char_name t'); simpl in *; auto. }
      destruct (d =? 33).
      { assert (D : forall s r t'', (length t'' <= length t')%nat -> fine (length (d :: t')) (skip_chars s r t'')).
        { intros s r t'' K. pose proof (skip_chars_total s r t'') as H. destruct (skip_chars s r t''); simpl in *; auto. lia. }
        destruct t' as [|e t'']; [exact I|].
        destruct (e =? 111); [apply D; simpl; lia|]. destruct (e =? 114); [apply D; simpl; lia|].
        destruct (e =? 107); [apply D; simpl; lia|exact I]. }
      destruct (d =? 58).
      { apply fine_map. pose proof (read_symbol_total (c :: d :: t')) as H.
        destruct (read_symbol (c :: d :: t')); simpl in *; auto. lia. }
      destruct (one_of d [116; 84]); [simpl; lia|]. destruct (one_of d [102; 70]); [simpl; lia|].
      destruct (one_of d _); [exact IDC|].
      destruct (d =? 117); [|exact I].
      pose proof (skip_chars_total [110; 100; 101; 102; 105; 110; 101; 100] (SLit lit_undefined) t') as H.
      destruct (skip_chars _ _ t'); simpl in *; auto. }
    apply (ID (c :: t)). simpl. lia.
  - intros text elems tail L. cbn [read_list].
    destruct text as [|c t]; [exact I|]. simpl in L.
    assert (EL : fine (length (c :: t)) (match readl f (c :: t) with
      | ROk v t' => read_list f t' (v :: elems) SNil
      | r => r
      end)).
    { specialize (R (c :: t) ltac:(simpl; lia)). simpl Nat.sub in R. rewrite Nat.sub_0_r in R.
      destruct (readl f (c :: t)) as [v t'| |]; simpl in R |- *; auto.
      eapply fine_le; [|apply IHl]; simpl; lia. }
    destruct (white c). { eapply fine_le; [|apply IHl]; simpl; lia. }
    destruct (c =? 59). { pose proof (skip_line_length t). eapply fine_le; [|apply IHl]; simpl; lia. }
    destruct (one_of c [41; 93]); [simpl; lia|].
    destruct (c =? 46).
    { destruct t as [|d t']; [exact I|]. destruct (white d); [|exact EL].
      destruct elems as [|e elems]; [exact I|].
      specialize (R (d :: t') ltac:(simpl in L |- *; lia)). simpl Nat.sub in R. rewrite Nat.sub_0_r in R.
      destruct (readl f (d :: t')); simpl in R |- *; auto. eapply fine_le; [|apply IHl]; simpl in *; lia. }
    destruct (c =? 35).
    { destruct t as [|d t']; [simpl; lia|]. destruct (d =? 124); [|exact EL].
      destruct (read_comment 124 t' 1) eqn:E; [|exact I]. apply read_comment_length with (n := length t') in E; [|lia].
      eapply fine_le; [|apply IHl]; simpl in *; lia. }
    exact EL.
Qed.

(** More budget changes nothing. *)
Lemma reader_mono1 : forall f,
  (forall text, readl f text <> RFuel -> readl (S f) text = readl f text) /\
  (forall text elems tail, read_list f text elems tail <> RFuel ->
     read_list (S f) text elems tail = read_list f text elems tail).
Proof.
  assert (MAP : forall A B (g : A -> B) (r r' : rd A),
    (r <> RFuel -> r' = r) -> rd_map g r <> RFuel -> rd_map g r' = rd_map g r).
  { intros A B g r r' H K. rewrite H; auto. intros ->. apply K; reflexivity. }
  induction f as [|f [IHr IHl]]; [split; intros; exfalso; auto|].
  split.
  - intros [|c t] H; [reflexivity|].
    remember (S f) as f1 eqn:E1.
    transitivity (readl (S f) (c :: t)); [|now rewrite E1].
    rewrite E1 in H. cbn [readl] in H |- *.
    destruct (white c); [apply IHr, H|].
    destruct (c =? 59); [apply IHr, H|].
    destruct (c =? 40); [apply IHl, H|].
    destruct (c =? 39); [apply MAP; auto|].
    destruct (c =? 96); [apply MAP; auto|].
    destruct (c =? 44). { destruct t as [|x t']; [reflexivity|]. destruct (x =? 64); apply MAP; auto. }
    destruct (c =? 91); [apply MAP; auto|].
    destruct (c =? 34); [reflexivity|].
    destruct (c =? 63); [reflexivity|].
    destruct (c =? 35); [|reflexivity].
    destruct t as [|d t']; [reflexivity|].
    destruct (d =? 39); [apply MAP; auto|].
    destruct (d =? 91).
    { rewrite IHl; [reflexivity|]. intros E; rewrite E in H; auto. }
    destruct (d =? 40); [apply MAP; auto|].
    destruct (d =? 124); [|reflexivity].
    destruct (read_comment 124 t' 1); [apply IHr, H|reflexivity].
  - intros [|c t] elems tail H; [reflexivity|].
    remember (S f) as f1 eqn:E1.
    transitivity (read_list (S f) (c :: t) elems tail); [|now rewrite E1].
    rewrite E1 in H. cbn [read_list] in H |- *.
    assert (EL : forall l, match readl f (c :: t) with
        | ROk v t' => read_list f t' (v :: l) SNil
        | r => r
        end <> RFuel -> match readl f1 (c :: t) with
        | ROk v t' => read_list f1 t' (v :: l) SNil
        | r => r
        end = match readl f (c :: t) with
        | ROk v t' => read_list f t' (v :: l) SNil
        | r => r
        end).
    { intros l K. rewrite IHr; [|intros E; rewrite E in K; auto].
      destruct (readl f (c :: t)); auto. }
    destruct (white c); [apply IHl, H|].
    destruct (c =? 59); [apply IHl, H|].
    destruct (one_of c [41; 93]); [reflexivity|].
    destruct (c =? 46).
    { destruct t as [|d t']; [reflexivity|]. destruct (white d); [|apply EL, H].
      destruct elems as [|e elems]; [reflexivity|].
      rewrite IHr; [|intros E; rewrite E in H; auto]. destruct (readl f (d :: t')); auto. }
    destruct (c =? 35).
    { destruct t as [|d t']; [reflexivity|]. destruct (d =? 124); [|apply EL, H].
      destruct (read_comment 124 t' 1); [apply IHl, H|reflexivity]. }
    apply EL, H.
Qed.

Lemma readl_mono : forall f f' text, (f <= f')%nat -> readl f text <> RFuel -> readl f' text = readl f text.
Proof.
  intros f f' text L H. induction L as [|f' L IH]; [reflexivity|].
  rewrite <- IH. apply (reader_mono1 f'). rewrite IH. exact H.
Qed.
Lemma read_list_mono : forall f f' text el tl, (f <= f')%nat -> read_list f text el tl <> RFuel ->
  read_list f' text el tl = read_list f text el tl.
Proof.
  intros f f' text el tl L H. induction L as [|f' L IH]; [reflexivity|].
  rewrite <- IH. apply (reader_mono1 f'). rewrite IH. exact H.
Qed.

Lemma readl_total : forall fuel text, (2 * length text + 1 <= fuel)%nat -> readl fuel text <> RFuel.
Proof.
  intros fuel [|c t] L.
  - destruct fuel; [simpl in L; lia|]. discriminate.
  - simpl in L. pose proof (proj1 (reader_total fuel) c t ltac:(lia)) as F.
    intros E. rewrite E in F. exact F.
Qed.

Lemma readl_suffice : forall f fuel text v t, readl f text = ROk v t ->
  (2 * length text + 1 <= fuel)%nat -> readl fuel text = ROk v t.
Proof.
  intros f fuel text v t H L. pose proof (readl_total fuel text L) as T.
  destruct (Nat.le_ge_cases f fuel) as [K|K].
  - rewrite <- H. apply readl_mono; [auto|congruence].
  - rewrite <- H. symmetry. apply readl_mono; auto.
Qed.

(** ** Symbols *)

Definition tok := (bool * Z)%type.
Definition flat1 (t : tok) : list Z := if fst t then [92; snd t] else [snd t].
Definition flat (l : list tok) : list Z := concat (map flat1 l).
Definition plain (c : Z) : Prop := delim c = false /\ c <> 92 /\ c <> 124 /\ c <> 35.
Definition tok_ok (t : tok) : Prop := fst t = false -> plain (snd t).

Fixpoint run (l : list tok) (i : nat) (s : nstate) : nstate :=
  match l with
  | [] => s
  | (e, c) :: l' =>
    run l' (S i) (if e then set_radix 0 s else if radix s =? 0 then s else n_step i c s)
  end.

Lemma token_end_delim : forall c r, token_end (c :: r) -> delim c = true.
Proof.
  intros c r H. unfold token_end in H. unfold delim, white.
  apply orb_true_iff. rewrite !one_of_In. simpl in *. tauto.
Qed.

Lemma sym_end : forall rest bl i buf s, token_end rest ->
  sym_loop rest bl i buf s false = ROk (rev buf, s) rest.
Proof.
  intros [|c r] bl i buf s H; [reflexivity|]. cbn [sym_loop].
  rewrite (token_end_delim c r H). reflexivity.
Qed.

Lemma sym_toks : forall l bl i buf s rest, Forall tok_ok l -> token_end rest ->
  sym_loop (flat l ++ rest) bl i buf s false = ROk (rev buf ++ map snd l, run l i s) rest.
Proof.
  induction l as [|[e c] l IH]; intros bl i buf s rest H T.
  - simpl. rewrite app_nil_r. apply sym_end, T.
  - inversion H as [|? ? H1 H2]; subst. unfold flat. cbn [map concat]. fold (flat l).
    destruct e; unfold flat1; cbn [fst snd].
    + cbn [app sym_loop]. change (delim 92) with false. change (92 =? 35) with false.
      change (92 =? 92) with true. cbn [andb]. cbv iota.
      rewrite IH by auto. cbn [map snd run rev]. now rewrite <- app_assoc.
    + destruct (H1 eq_refl) as (P1 & P2 & P3 & P4). cbn [snd] in *. cbn [app sym_loop].
      rewrite P1. rewrite (proj2 (Z.eqb_neq c 35) P4), (proj2 (Z.eqb_neq c 92) P2), (proj2 (Z.eqb_neq c 124) P3).
      cbn [andb]. rewrite IH by auto. cbn [map snd run rev]. now rewrite <- app_assoc.
Qed.

Lemma run_zero : forall l i s, radix s = 0 -> radix (run l i s) = 0.
Proof.
  induction l as [|[e c] l IH]; intros i s H; [exact H|]. cbn [run]. apply IH.
  destruct e; [reflexivity|]. rewrite H. exact H.
Qed.

Lemma run_escaped : forall l i s, Exists (fun t => fst t = true) l -> radix (run l i s) = 0.
Proof.
  induction l as [|[e c] l IH]; intros i s H; [inversion H|]. cbn [run].
  inversion H as [? ? E|? ? E]; subst.
  - cbn in E. subst e. apply run_zero. reflexivity.
  - apply IH, E.
Qed.

(** The state after reading plain characters *)
Definition is_signs (l : list Z) := Forall (fun c => c = 43 \/ c = 45) l.
Definition inv (pre : list Z) (s : nstate) : Prop :=
  prefix s = false /\
  (radix s = 0 \/
   (radix s = -1 /\ is_signs pre /\ nfirst s = length pre /\
      exact_ s = true /\ rational s = false /\ exponent s = false) \/
   (radix s = 1 /\ (nfirst s < length pre)%nat /\
      exact_ s = true /\ rational s = false /\ exponent s = false /\
      exists sg, pre = sg ++ [48] /\ is_signs sg) \/
   ((radix s = 10 \/ radix s = 8) /\ (nfirst s < length pre)%nat /\
      exponent s = false /\
      exists sg d1 p d2, pre = sg ++ d1 ++ p ++ d2 /\ is_signs sg /\ Forall digitlike d1 /\ Forall digitlike d2 /\
        (d1 <> [] \/ p = [46]) /\
        ((p = [] /\ d2 = [] /\ exact_ s = true /\ rational s = false) \/
         (p = [46] /\ exact_ s = false) \/ (p = [47] /\ rational s = true))) \/
   (radix s = 10 /\ (nfirst s < length pre)%nat /\ exact_ s = false /\
      exists sg m e t, pre = sg ++ m ++ e :: t /\ is_signs sg /\ mantissa m /\ (e = 101 \/ e = 69) /\
        Forall (fun c => digitlike c \/ In c [43; 45; 101; 69]) t) \/
   (radix s = 16 /\ (nfirst s <= length pre)%nat /\
      exists sg x t, pre = sg ++ 48 :: x :: t /\ is_signs sg /\ (x = 120 \/ x = 88) /\
        Forall (fun c => hexdigit c \/ In c [43; 45; 47]) t)).

Lemma one_of_false : forall c l, one_of c l = false -> ~ In c l.
Proof. intros c l H I. apply one_of_In in I. congruence. Qed.

Ltac inv0 := split; [reflexivity|left; reflexivity].
Lemma n_digit_prefix : forall c s, prefix (n_digit c s) = prefix s.
Proof. intros c s. unfold n_digit. repeat match goal with |- context [if ?b then _ else _] => destruct b end; reflexivity. Qed.

Lemma n_digit_cases : forall c s, radix (n_digit c s) = 0 \/
  (n_digit c s = s /\ (radix s <= 10 -> 48 <= c <= 47 + radix s) /\ (radix s = 16 -> hexdigit c)).
Proof.
  intros c s. unfold n_digit.
  destruct ((radix s <=? 10) && negb ((48 <=? c) && (c <=? 48 + radix s - 1))) eqn:A; [left; reflexivity|].
  destruct ((radix s =? 16) && negb (is_xdigit c)) eqn:B; [left; reflexivity|].
  right. split; [reflexivity|]. split; intros H; [lia|].
  assert (X : is_xdigit c = true) by (destruct (is_xdigit c); auto; lia).
  unfold is_xdigit, is_digit in X. unfold hexdigit, digitlike. lia.
Qed.

Lemma inv_zero : forall pre s, prefix s = false -> radix s = 0 -> inv pre s.
Proof. intros pre s A B. split; auto. Qed.

Lemma inv_step : forall pre s c, inv pre s -> radix s <> 0 -> c <> 35 ->
  inv (pre ++ [c]) (n_step (length pre) c s).
Proof.
  intros pre s c [P H] R N35. unfold n_step. rewrite P.
  assert (LEN : length (pre ++ [c]) = S (length pre)) by (rewrite app_length; simpl; lia).
  destruct H as [H|[H|[H|[H|[H|H]]]]]; [contradiction| | | | |].
  - (* signs so far *)
    destruct H as (R1 & SG & NF & EX & RA & XP). rewrite NF, Nat.eqb_refl. cbn [andb].
    destruct (one_of c [45; 43; 35]) eqn:O.
    + apply one_of_In in O. destruct (c =? 35) eqn:E; [lia|].
      split; [exact P|]. right; left. simpl. repeat split; auto.
      apply Forall_app; split; [exact SG|]. constructor; [|constructor]. simpl in O. lia.
    + rewrite R1. cbn [Z.eqb]. destruct (c =? 46) eqn:E46.
      * split; [exact P|]. right; right; right; left. cbn. rewrite LEN. split; [auto|]. split; [lia|].
        split; [exact XP|]. exists pre, [], [46], []. replace c with 46 by lia. simpl.
        repeat split; auto.
      * destruct (is_digit c) eqn:D; cbn [negb]; [|apply inv_zero; auto].
        unfold is_digit in D.
        destruct (c =? 48) eqn:E48.
        -- split; [exact P|]. right; right; left. cbn. rewrite LEN. repeat split; auto; try lia.
           exists pre. replace c with 48 by lia. auto.
        -- split; [exact P|]. right; right; right; left. cbn. rewrite LEN. split; [auto|]. split; [lia|].
           split; [exact XP|]. exists pre, [c], [], []. simpl. repeat split; auto.
           ++ constructor; [unfold digitlike; lia|constructor].
           ++ left; discriminate.
  - (* a leading zero *)
    destruct H as (R1 & NF & EX & RA & XP & sg & E & SG).
    destruct (Nat.eqb (length pre) (nfirst s)) eqn:EQ; [apply Nat.eqb_eq in EQ; lia|]. cbn [andb].
    rewrite R1. cbn [Z.eqb Pos.eqb].
    assert (D48 : Forall digitlike [48]) by (constructor; [unfold digitlike; lia|constructor]).
    destruct (one_of c [120; 88]) eqn:O.
    { apply one_of_In in O. split; [exact P|]. do 5 right. cbn. rewrite LEN. split; [auto|]. split; [lia|].
      exists sg, c, []. rewrite E, <- app_assoc. simpl in *. repeat split; auto. lia. }
    destruct (is_octal c) eqn:OC.
    { unfold is_octal in OC. split; [exact P|]. right; right; right; left. cbn. rewrite LEN. split; [auto|]. split; [lia|].
      split; [exact XP|]. exists sg, [48; c], [], []. rewrite E, <- app_assoc. simpl. repeat split; auto.
      - constructor; [unfold digitlike; lia|]. constructor; [unfold digitlike; lia|constructor].
      - left; discriminate. }
    destruct (one_of c [46; 101; 69]) eqn:O2.
    { apply one_of_In in O2. destruct (Z.eq_dec c 46) as [->|N].
      - split; [exact P|]. right; right; right; left. cbn. rewrite LEN. split; [auto|]. split; [lia|].
        split; [exact XP|]. exists sg, [48], [46], []. rewrite E, <- app_assoc. simpl. repeat split; auto.
      - split; [exact P|]. right; right; right; right; left. cbn. rewrite LEN. split; [auto|]. split; [lia|].
        split; [auto|]. exists sg, [48], c, []. rewrite E, <- app_assoc. simpl in *. repeat split; auto; [|lia].
        exists [48], [], []. simpl. repeat split; auto. left; discriminate. }
    destruct (c =? 47) eqn:E47; [|apply inv_zero; auto].
    split; [exact P|]. right; right; right; left. cbn. rewrite LEN. split; [auto|]. split; [lia|].
    split; [exact XP|]. exists sg, [48], [47], []. rewrite E, <- app_assoc. replace c with 47 by lia. simpl.
    repeat split; auto. left; discriminate.
  - (* mantissa *)
    destruct H as (R1 & NF & XP & sg & d1 & p & d2 & E & SG & D1 & D2 & NE & FL).
    destruct (Nat.eqb (length pre) (nfirst s)) eqn:EQ; [apply Nat.eqb_eq in EQ; lia|]. cbn [andb].
    destruct (radix s =? -1) eqn:?; [lia|]. destruct (radix s =? 1) eqn:?; [lia|].
    destruct (c =? 46) eqn:E46.
    { replace c with 46 in * by lia. destruct FL as [(-> & -> & EX & RA)|[(-> & EX)|(-> & RA)]].
      - rewrite EX, RA. cbn [andb negb]. destruct (radix s =? 10) eqn:R10; cbn [andb]; [|apply inv_zero; auto].
        split; [exact P|]. right; right; right; left. cbn. rewrite LEN. split; [auto|]. split; [lia|].
        split; [exact XP|]. exists sg, d1, [46], []. rewrite E. rewrite !app_nil_r, <- app_assoc.
        repeat split; auto.
      - rewrite EX. apply inv_zero; auto.
      - rewrite RA. cbn [negb]. rewrite andb_false_r. apply inv_zero; auto. }
    destruct (c =? 47) eqn:E47.
    { replace c with 47 in * by lia. destruct FL as [(-> & -> & EX & RA)|[(-> & EX)|(-> & RA)]].
      - rewrite EX, RA. cbn [andb negb].
        split; [exact P|]. right; right; right; left. cbn. rewrite LEN. split; [auto|]. split; [lia|].
        split; [exact XP|]. exists sg, d1, [47], []. rewrite E. rewrite !app_nil_r, <- app_assoc.
        repeat split; auto. destruct NE as [NE|NE]; [auto|discriminate].
      - rewrite EX. apply inv_zero; auto.
      - rewrite RA. cbn [negb]. rewrite andb_false_r. apply inv_zero; auto. }
    assert (DIG : inv (pre ++ [c]) (n_digit c s)).
    { destruct (n_digit_cases c s) as [Z0|(-> & A & _)]; [apply inv_zero; [rewrite n_digit_prefix; auto|auto]|].
      assert (DC : digitlike c) by (unfold digitlike; lia).
      split; [exact P|]. right; right; right; left. rewrite LEN. split; [auto|]. split; [lia|].
      split; [exact XP|].
      destruct FL as [(-> & -> & EX & RA)|FL].
      - exists sg, (d1 ++ [c]), [], []. rewrite E, !app_nil_r, <- app_assoc. repeat split; auto.
        + apply Forall_app; auto.
        + left. destruct d1; discriminate.
      - exists sg, d1, p, (d2 ++ [c]). rewrite E, <- !app_assoc. repeat split; auto.
        apply Forall_app; auto.
    }
    destruct (one_of c [45; 43]). { rewrite XP. cbn [negb]. exact DIG. }
    destruct (one_of c [101; 69]) eqn:OE; cbn [andb]; [|exact DIG].
    destruct (radix s =? 10) eqn:R10; [|exact DIG].
    destruct (negb (rational s) && negb (exponent s)) eqn:B; [|apply inv_zero; auto].
    apply one_of_In in OE.
    split; [exact P|]. right; right; right; right; left. cbn. rewrite LEN. split; [lia|]. split; [lia|].
    split; [auto|]. exists sg, (d1 ++ p ++ d2), c, []. rewrite E, <- !app_assoc. repeat split; auto.
    + exists d1, p, d2. repeat split; auto.
      destruct FL as [(-> & ?)|[(-> & ?)|(-> & ?)]]; auto.
    + simpl in OE; lia.
  - (* exponent *)
    destruct H as (R1 & NF & EX & sg & m & e & t & E & SG & M & EE & T).
    destruct (Nat.eqb (length pre) (nfirst s)) eqn:EQ; [apply Nat.eqb_eq in EQ; lia|]. cbn [andb].
    rewrite R1, EX. cbn [Z.eqb Pos.eqb andb].
    destruct (c =? 46); [apply inv_zero; auto|]. destruct (c =? 47); [apply inv_zero; auto|].
    assert (GO : forall s', prefix s' = false -> radix s' = 10 -> nfirst s' = nfirst s -> exact_ s' = false ->
      digitlike c \/ In c [43; 45; 101; 69] -> inv (pre ++ [c]) s').
    { intros s' P' R' N' X' C'. split; [exact P'|]. right; right; right; right; left. rewrite LEN.
      split; [auto|]. split; [lia|]. split; [auto|]. exists sg, m, e, (t ++ [c]).
      rewrite E, <- !app_assoc. repeat split; auto. apply Forall_app; auto. }
    assert (DIG : inv (pre ++ [c]) (n_digit c s)).
    { destruct (n_digit_cases c s) as [Z0|(-> & A & _)]; [apply inv_zero; [rewrite n_digit_prefix; auto|auto]|].
      apply GO; auto. left. unfold digitlike. lia. }
    destruct (one_of c [45; 43]) eqn:OS.
    { destruct (exponent s); cbn [negb]; [|exact DIG]. apply one_of_In in OS. apply GO; auto.
      right. simpl in *. lia. }
    destruct (one_of c [101; 69]) eqn:OE; [|exact DIG].
    destruct (negb (rational s) && negb (exponent s)); [|apply inv_zero; auto].
    apply one_of_In in OE. apply GO; auto. right. simpl in *. lia.
  - (* hexadecimal *)
    destruct H as (R1 & NF & sg & x & t & E & SG & X & T).
    assert (GO : forall s', prefix s' = false -> radix s' = 16 -> (nfirst s' <= S (length pre))%nat ->
      hexdigit c \/ In c [43; 45; 47] -> inv (pre ++ [c]) s').
    { intros s' P' R' N' C'. split; [exact P'|]. do 5 right. rewrite LEN.
      split; [auto|]. split; [lia|]. exists sg, x, (t ++ [c]).
      rewrite E, <- !app_assoc. repeat split; auto. apply Forall_app; auto. }
    destruct (Nat.eqb (length pre) (nfirst s) && one_of c [45; 43; 35]) eqn:B.
    { apply andb_true_iff in B. destruct B as [_ B]. apply one_of_In in B.
      destruct (c =? 35) eqn:E35; [lia|]. apply GO; auto. right; simpl in *; lia. }
    rewrite R1. cbn [Z.eqb Pos.eqb andb].
    destruct (c =? 46); [rewrite andb_false_r; apply inv_zero; auto|].
    destruct (c =? 47) eqn:E47.
    { destruct (exact_ s && negb (rational s)); [|apply inv_zero; auto].
      apply GO; simpl; auto. lia. }
    assert (DIG : inv (pre ++ [c]) (n_digit c s)).
    { destruct (n_digit_cases c s) as [Z0|(-> & _ & A)]; [apply inv_zero; [rewrite n_digit_prefix; auto|auto]|].
      apply GO; auto. }
    destruct (one_of c [45; 43]) eqn:OS.
    { destruct (exponent s); cbn [negb]; [|exact DIG]. apply one_of_In in OS. apply GO; auto.
      right; simpl in *; lia. }
    rewrite andb_false_r. exact DIG.
Qed.

Definition toks_plain (l : list Z) : list tok := map (fun c => (false, c)) l.

Lemma inv_run : forall l pre s, inv pre s -> Forall (fun c => c <> 35) l ->
  inv (pre ++ l) (run (toks_plain l) (length pre) s).
Proof.
  induction l as [|c l IH]; intros pre s I F; [simpl; now rewrite app_nil_r|].
  inversion F; subst. cbn [toks_plain map run]. fold (toks_plain l).
  replace (pre ++ c :: l) with ((pre ++ [c]) ++ l) by (rewrite <- app_assoc; reflexivity).
  replace (S (length pre)) with (length (pre ++ [c])) by (rewrite app_length; simpl; lia).
  apply IH; auto. destruct (radix s =? 0) eqn:E.
  - apply inv_zero; [apply I|lia].
  - apply inv_step; auto. lia.
Qed.

Lemma inv_number : forall name s, inv name s -> 0 < radix s -> (nfirst s < length name)%nat -> number_syntax name.
Proof.
  intros name s [P H] R NF.
  assert (D48 : Forall digitlike [48]) by (constructor; [unfold digitlike; lia|constructor]).
  destruct H as [H|[H|[H|[H|[H|H]]]]]; [lia|lia| | | |].
  - destruct H as (_ & _ & _ & _ & _ & sg & E & SG). exists sg, [48]. repeat split; auto. left.
    exists [48], []. rewrite app_nil_r. repeat split; [|left; reflexivity].
    exists [48], [], []. repeat split; auto. left; discriminate.
  - destruct H as (_ & _ & _ & sg & d1 & p & d2 & E & SG & D1 & D2 & NE & FL).
    exists sg, (d1 ++ p ++ d2). repeat split; auto. left. exists (d1 ++ p ++ d2), []. rewrite app_nil_r.
    repeat split; [|left; reflexivity]. exists d1, p, d2. repeat split; auto.
    destruct FL as [(-> & ?)|[(-> & ?)|(-> & ?)]]; auto.
  - destruct H as (_ & _ & _ & sg & m & e & t & E & SG & M & EE & T).
    exists sg, (m ++ e :: t). repeat split; auto. left. exists m, (e :: t). repeat split; auto.
    right. exists e, t. auto.
  - destruct H as (_ & _ & sg & x & t & E & SG & X & T). exists sg, (48 :: x :: t). repeat split; auto.
    right. exists x, t. auto.
Qed.

(** *** Printed names *)

Definition escf (c : Z) : bool :=
  one_of c [32; 9; 10; 12; 40; 41; 91; 93; 39; 34; 59; 92; 124; 44; 96] || (c =? 35) || is_cntrl c.
Definition name_toks (l : list Z) : list tok := map (fun c => (escf c, c)) l.

Lemma print_name_toks : forall l first key, Forall (fun c => 0 < c < 256) l -> key && first = false ->
  print_name l first key = flat (name_toks l).
Proof.
  induction l as [|c l IH]; intros first key F K; [reflexivity|].
  inversion F; subst. cbn [print_name]. destruct (c =? 0) eqn:E0; [lia|].
  unfold flat, name_toks. cbn [map concat]. fold (name_toks l). fold (flat (name_toks l)).
  rewrite IH by (auto; apply andb_false_r). f_equal. rewrite K. unfold flat1, escf. cbn [fst snd negb].
  destruct (one_of c _); [reflexivity|]. cbn [orb].
  destruct (c =? 35); cbn [orb]; [reflexivity|]. reflexivity.
Qed.

Lemma escf_plain : forall c, escf c = false -> plain c.
Proof.
  intros c H. unfold escf in H. apply orb_false_iff in H. destruct H as [H C].
  apply orb_false_iff in H. destruct H as [H H35]. apply one_of_false in H. unfold is_cntrl in C.
  simpl in H. unfold plain. repeat split; try lia.
  destruct (delim c) eqn:D; [|reflexivity]. unfold delim, white in D. apply orb_true_iff in D.
  rewrite !one_of_In in D. simpl in D. lia.
Qed.

Lemma name_toks_ok : forall l, Forall tok_ok (name_toks l).
Proof.
  intros l. unfold name_toks. apply Forall_forall. intros t I. apply in_map_iff in I.
  destruct I as (c & <- & I). unfold tok_ok. cbn. apply escf_plain.
Qed.

Lemma name_toks_snd : forall l, map snd (name_toks l) = l.
Proof. induction l as [|c l IH]; [reflexivity|]. cbn. now f_equal. Qed.

Lemma name_toks_plain : forall l,
  Exists (fun t : tok => fst t = true) (name_toks l) \/ name_toks l = toks_plain l.
Proof.
  induction l as [|c l IH]; [right; reflexivity|]. cbn. destruct (escf c) eqn:E.
  - left. now constructor.
  - destruct IH as [IH|IH]; [left; now constructor 2|right]. unfold name_toks, toks_plain in IH |- *. now rewrite IH.
Qed.

Lemma escape_first_head : forall c r, escape_first (c :: r) = true ->
  is_digit c = true \/ In c [45; 43; 46].
Proof.
  intros c r H. cbn [escape_first] in H. destruct (is_digit c); [auto|].
  destruct (one_of c [45; 43; 46]) eqn:O; [|discriminate]. right. now apply one_of_In.
Qed.

Lemma scan_digits_true : forall r seen, Forall (fun c => 0 < c < 256) r ->
  Forall (fun x => digitlike x \/ x = 47 \/ x = 46) r ->
  seen = true \/ Exists digitlike r -> scan_digits r seen = true.
Proof.
  induction r as [|c r IH]; intros seen B F H; cbn [scan_digits].
  - destruct H as [H|H]; [auto|inversion H].
  - inversion B; inversion F; subst. destruct (c =? 0) eqn:?; [lia|].
    destruct (is_digit c) eqn:D; [apply IH; auto|]. unfold is_digit in D.
    assert (ND : ~ digitlike c) by (unfold digitlike; lia).
    destruct (one_of c [47; 46]) eqn:O.
    + apply IH; auto. destruct H as [H|H]; [auto|]. inversion H; subst; [contradiction|auto].
    + apply one_of_false in O. cbn [In] in O. exfalso.
      match goal with X : digitlike c \/ _ |- _ => destruct X; [contradiction|lia] end.
Qed.

Lemma number_like_escaped : forall name, Forall (fun c => 0 < c < 256) name ->
  number_like name -> escape_first name = true.
Proof.
  intros name B (c & r & -> & C & F & X). inversion B; subst. cbn [escape_first].
  destruct (is_digit c) eqn:D; [apply scan_digits_true; auto|]. unfold is_digit in D.
  assert (ND : ~ digitlike c) by (unfold digitlike; lia).
  destruct C as [C|C]; [contradiction|]. apply one_of_In in C. rewrite C.
  apply scan_digits_true; auto. inversion X; subst; [contradiction|auto].
Qed.

Lemma printed_symbol : forall name, name <> [] -> Forall (fun c => 0 < c < 256) name ->
  exists l, print_symbol name false = flat l /\ map snd l = name /\ Forall tok_ok l /\
    (Exists (fun t : tok => fst t = true) l \/ (l = toks_plain name /\ escape_first name = false)).
Proof.
  intros [|c r] NE B; [congruence|]. unfold print_symbol.
  rewrite print_name_toks by auto. destruct (escape_first (c :: r)) eqn:EF.
  - assert (E : escf c = false).
    { destruct (escf c) eqn:E; [|reflexivity]. apply escape_first_head in EF.
      unfold escf, is_cntrl in E. unfold is_digit in EF. apply orb_true_iff in E. rewrite orb_true_iff in E.
      rewrite one_of_In in E. simpl in E, EF. lia. }
    exists ((true, c) :: name_toks r). split; [|split; [|split; [|left; now constructor]]].
    + unfold flat, name_toks. cbn [map concat]. rewrite E. reflexivity.
    + cbn. now rewrite name_toks_snd.
    + constructor; [discriminate|apply name_toks_ok].
  - exists (name_toks (c :: r)). split; [reflexivity|]. split; [apply name_toks_snd|]. split; [apply name_toks_ok|].
    destruct (name_toks_plain (c :: r)); auto.
Qed.

Lemma toks_plain_ok_35 : forall name, Forall tok_ok (toks_plain name) -> Forall (fun c => c <> 35) name.
Proof.
  intros name H. apply Forall_forall. intros c I. rewrite Forall_forall in H.
  assert (T : tok_ok (false, c)) by (apply H; unfold toks_plain; apply in_map_iff; eauto).
  destruct (T eq_refl) as (_ & _ & _ & N). exact N.
Qed.

Lemma symbol_result : forall name s, name <> [] -> (length name < 240)%nat ->
  ~ (0 < radix s /\ (nfirst s < length name)%nat) ->
  symbol_or_number name s (Nat.ltb start_buflen (length name)) = Some (SSym name).
Proof.
  intros name s NE L H. unfold symbol_or_number.
  assert (F : Nat.ltb start_buflen (length name) = false) by (apply Nat.ltb_ge; unfold start_buflen; lia).
  rewrite F.
  assert (C : (0 <? radix s) && Nat.ltb (nfirst s) (length name) = false).
  { apply andb_false_iff. destruct (0 <? radix s) eqn:R; [|auto]. right. apply Nat.ltb_ge. lia. }
  rewrite C. destruct name; [congruence|reflexivity].
Qed.

Lemma read_printed_symbol : forall name rest, good_name name -> token_end rest ->
  read_symbol (print_symbol name false ++ rest) = ROk (SSym name) rest.
Proof.
  intros name rest (NE & L & B & _ & _ & NUM) T.
  destruct (printed_symbol name NE B) as (l & -> & S & OK & ESC).
  unfold read_symbol. rewrite sym_toks by auto. cbn [rev app]. rewrite S, symbol_result; auto.
  intros [R NF]. destruct ESC as [ESC|[-> EF]].
  - rewrite (run_escaped l 0 n_start ESC) in R. lia.
  - destruct NUM as [NUM|NUM]; [apply number_like_escaped in NUM; [congruence|auto]|].
    apply NUM. apply inv_number with (run (toks_plain name) 0 n_start); auto.
    apply (inv_run name [] n_start); [|apply toks_plain_ok_35, OK].
    split; [reflexivity|]. right; left. repeat split; auto. constructor.
Qed.

Lemma read_printed_key : forall r rest, (length r < 238)%nat -> Forall (fun c => 0 < c < 256) r ->
  token_end rest ->
  read_symbol (print_symbol (35 :: 58 :: r) true ++ rest) = ROk (SSym (35 :: 58 :: r)) rest.
Proof.
  intros r rest L B T. unfold print_symbol. change (escape_first (35 :: 58 :: r)) with false.
  cbn [app]. cbn [print_name]. change (35 =? 0) with false. change (58 =? 0) with false. cbv iota.
  change (if one_of 35 _ || _ then [92; 35] else [35]) with [35].
  change (if one_of 58 _ || _ then [92; 58] else [58]) with [58].
  rewrite print_name_toks by auto. unfold read_symbol.
  replace (([35] ++ [58] ++ flat (name_toks r)) ++ rest) with (35 :: 58 :: (flat (name_toks r) ++ rest))
    by reflexivity.
  cbn [sym_loop Nat.eqb start_buflen].
  change (delim 35) with false. change (delim 58) with false. change (35 =? 35) with true.
  change (35 =? 92) with false. change (35 =? 124) with false. change (58 =? 92) with false.
  change (58 =? 124) with false. change (58 =? 35) with false.
  cbn [andb]. cbv iota. change (radix n_start =? 0) with false. cbv iota.
  set (s1 := n_step 0 35 n_start). assert (R1 : radix s1 = -1) by reflexivity.
  assert (P1 : prefix s1 = true) by reflexivity. rewrite R1. change (-1 =? 0) with false. cbv iota.
  rewrite sym_toks; [|apply name_toks_ok|auto]. cbn [rev app].
  rewrite name_toks_snd. rewrite symbol_result; [reflexivity|discriminate|simpl; lia|].
  intros [R _]. rewrite run_zero in R; [lia|]. reflexivity.
Qed.

(** *** Reading through readl and read_list *)

Definition starts_ok (text : list Z) : Prop :=
  match text with
  | [] => False
  | c :: t => white c = false /\ c <> 59 /\ c <> 41 /\ c <> 93 /\
              (c = 46 -> exists d t', t = d :: t' /\ white d = false) /\
              (c = 35 -> exists d t', t = d :: t' /\ d <> 124)
  end.

Lemma list_element : forall f text elems tail v rest, starts_ok text -> readl f text = ROk v rest ->
  read_list (S f) text elems tail = read_list f rest (v :: elems) SNil.
Proof.
  intros f [|c t] elems tail v rest; [intros []|]. intros (W & N1 & N2 & N3 & D & H) E.
  cbn [read_list]. rewrite W. rewrite (proj2 (Z.eqb_neq c 59) N1).
  assert (O : one_of c [41; 93] = false).
  { destruct (one_of c [41; 93]) eqn:O; [|reflexivity]. apply one_of_In in O. simpl in O. lia. }
  rewrite O. destruct (c =? 46) eqn:E46.
  - destruct (D ltac:(lia)) as (d & t' & -> & Wd). rewrite Wd, E. reflexivity.
  - destruct (c =? 35) eqn:E35.
    + destruct (H ltac:(lia)) as (d & t' & -> & Nd). rewrite (proj2 (Z.eqb_neq d 124) Nd), E. reflexivity.
    + rewrite E. reflexivity.
Qed.

Lemma readl_identifier : forall f c t v rest,
  delim c = false -> c <> 63 -> c <> 35 -> token_end rest ->
  read_symbol (c :: t) = ROk v rest -> readl (S f) (c :: t) = ROk v rest.
Proof.
  intros f c t v rest D N63 N35 T E. cbn [readl].
  assert (W : white c = false) by (unfold delim in D; destruct (white c); auto).
  rewrite W. unfold delim in D. rewrite W in D. cbn [orb] in D. apply one_of_false in D. simpl in D.
  rewrite (proj2 (Z.eqb_neq c 59)) by lia. rewrite (proj2 (Z.eqb_neq c 40)) by lia.
  rewrite (proj2 (Z.eqb_neq c 39)) by lia. rewrite (proj2 (Z.eqb_neq c 96)) by lia.
  rewrite (proj2 (Z.eqb_neq c 44)) by lia. rewrite (proj2 (Z.eqb_neq c 91)) by lia.
  rewrite (proj2 (Z.eqb_neq c 34)) by lia. rewrite (proj2 (Z.eqb_neq c 63)) by lia.
  rewrite (proj2 (Z.eqb_neq c 35)) by lia. rewrite E.
  destruct rest as [|x r]; [reflexivity|].
  assert (x =? 35 = false). { unfold token_end in T. simpl in T. lia. }
  rewrite H. reflexivity.
Qed.

(** the first character of a printed symbol *)
Lemma printed_symbol_start : forall name rest, good_name name ->
  exists c t, print_symbol name false ++ rest = c :: t /\ delim c = false /\ c <> 63 /\ c <> 35 /\
    starts_ok (c :: t).
Proof.
  intros name rest (NE & L & B & DOT & Q & _). unfold print_symbol.
  destruct name as [|c r]; [congruence|]. cbn [hd] in Q.
  rewrite print_name_toks by auto.
  assert (BS : forall t, delim 92 = false /\ 92 <> 63 /\ 92 <> 35 /\ starts_ok (92 :: t)).
  { intros t. repeat split; try lia. }
  destruct (escape_first (c :: r)).
  { eexists 92, _. split; [reflexivity|]. apply BS. }
  unfold flat, name_toks. cbn [map concat app]. unfold flat1 at 1. cbn [fst snd].
  destruct (escf c) eqn:E; [eexists 92, _; split; [reflexivity|]; apply BS|].
  eexists c, _. split; [reflexivity|]. apply escf_plain in E. destruct E as (D & N1 & N2 & N3).
  assert (W : white c = false) by (unfold delim in D; destruct (white c); auto).
  assert (D' := D). unfold delim in D'. rewrite W in D'. cbn [orb] in D'. apply one_of_false in D'. simpl in D'.
  repeat split; auto; try lia.
  - intros ->. destruct r as [|c2 r]; [congruence|]. cbn [map concat app]. unfold flat1 at 1. cbn [fst snd].
    destruct (escf c2) eqn:E2; eexists _, _; split; try reflexivity.
    apply escf_plain in E2. destruct E2 as (D2 & _). unfold delim in D2. destruct (white c2); auto.
Qed.

(** *** Numbers *)

Lemma digitlike_of : forall c, Numbers_Proofs.is_digit 10 c -> digitlike c.
Proof.
  intros c (d & H & ->). unfold digit_char, digitlike. destruct (d <? 10) eqn:?; lia.
Qed.

Lemma digits_head : forall fuel n acc, 0 < n -> n < 2 ^ Z.of_nat fuel ->
  hd 0 (digits_acc fuel 10 n acc) <> 48.
Proof.
  induction fuel as [|f IH]; intros n acc P B; [simpl in B; lia|].
  cbn [digits_acc]. destruct (n / 10 =? 0) eqn:E.
  - cbn [hd]. assert (n < 10) by (apply Z.div_small_iff in E || (assert (n / 10 = 0) by lia; apply Z.div_small_iff in H; lia); lia).
    rewrite Z.mod_small by lia. unfold digit_char. destruct (n <? 10) eqn:?; lia.
  - apply IH.
    + assert (0 <= n / 10) by (apply Z.div_pos; lia). lia.
    + apply Z.div_lt_upper_bound; [lia|]. rewrite Nat2Z.inj_succ, Z.pow_succ_r in B by lia. lia.
Qed.

Lemma digits10 : forall n, 0 < n -> exists c l, digits 10 n = c :: l /\ 49 <= c <= 57 /\
  Forall digitlike (c :: l) /\ Forall (Numbers_Proofs.is_digit 10) (c :: l) /\ num_of_digits 10 0 (c :: l) = n.
Proof.
  intros n P. destruct (digits_spec 10 n ltac:(lia) ltac:(lia)) as (NE & F & V).
  assert (H : hd 0 (digits 10 n) <> 48).
  { unfold digits. apply digits_head; [auto|]. rewrite Nat2Z.inj_succ, Z2Nat.id by apply Z.log2_nonneg.
    apply Z.log2_spec; auto. }
  destruct (digits 10 n) as [|c l]; [congruence|]. exists c, l. cbn [hd] in H.
  assert (G : Forall digitlike (c :: l)) by (eapply Forall_impl; [apply digitlike_of|exact F]).
  repeat split; auto; inversion G as [|? ? X]; unfold digitlike in X; lia.
Qed.

Lemma digit_plain : forall c, digitlike c -> plain c.
Proof.
  intros c H. unfold digitlike in H. unfold plain, delim, white. repeat split; try lia.
  apply orb_false_iff. split; apply not_true_is_false; rewrite one_of_In; cbn [In]; lia.
Qed.

Lemma plain_toks_ok : forall l, Forall plain l -> Forall tok_ok (toks_plain l).
Proof.
  intros l H. apply Forall_forall. intros t I. unfold toks_plain in I. apply in_map_iff in I.
  destruct I as (c & <- & I). rewrite Forall_forall in H. intros _. apply H, I.
Qed.

Lemma flat_plain : forall l, flat (toks_plain l) = l.
Proof. induction l as [|c l IH]; [reflexivity|]. unfold flat, toks_plain in *. cbn. now f_equal. Qed.
Lemma snd_plain : forall l, map snd (toks_plain l) = l.
Proof. induction l as [|c l IH]; [reflexivity|]. unfold toks_plain in *. cbn. now f_equal. Qed.

Lemma run_app : forall a b i s, run (a ++ b) i s = run b (length a + i) (run a i s).
Proof.
  induction a as [|[e c] a IH]; intros b i s; [reflexivity|]. cbn [app run length].
  rewrite IH. f_equal. lia.
Qed.

Lemma step_digit : forall i c s, digitlike c -> radix s = 10 -> prefix s = false -> (nfirst s < i)%nat ->
  n_step i c s = s.
Proof.
  intros i c s D R P N. unfold digitlike in D. unfold n_step. rewrite P.
  destruct (Nat.eqb i (nfirst s)) eqn:E; [apply Nat.eqb_eq in E; lia|]. cbn [andb].
  rewrite R. cbn [Z.eqb Pos.eqb].
  assert (O : forall l, (forall x, In x l -> ~ 48 <= x <= 57) -> one_of c l = false).
  { intros l H. apply not_true_is_false. rewrite one_of_In. intros I. apply (H c I). lia. }
  rewrite (proj2 (Z.eqb_neq c 46)), (proj2 (Z.eqb_neq c 47)) by lia.
  rewrite O by (cbn [In]; lia). rewrite O by (cbn [In]; lia). cbn [andb].
  unfold n_digit. rewrite R. cbn [Z.eqb Pos.eqb andb].
  destruct ((10 <=? 10) && negb ((48 <=? c) && (c <=? 48 + 10 - 1))) eqn:B; [lia|reflexivity].
Qed.

Lemma run_digits : forall l i s, Forall digitlike l -> radix s = 10 -> prefix s = false -> (nfirst s < i)%nat ->
  run (toks_plain l) i s = s.
Proof.
  induction l as [|c l IH]; intros i s F R P N; [reflexivity|]. inversion F; subst.
  cbn [toks_plain map run]. fold (toks_plain l). rewrite step_digit by auto. rewrite R. cbn [Z.eqb]. apply IH; auto.
Qed.

Lemma run_first_digit : forall s i c, prefix s = false -> radix s = -1 -> 49 <= c <= 57 ->
  run (toks_plain [c]) i s = set_radix 10 s.
Proof.
  intros s i c P R C. cbn [toks_plain map run]. rewrite R. change (-1 =? 0) with false. cbv iota.
  unfold n_step. rewrite P.
  assert (O : one_of c [45; 43; 35] = false).
  { apply not_true_is_false. rewrite one_of_In. cbn [In]. lia. }
  rewrite O, andb_false_r, R. change (-1 =? -1) with true. cbv iota.
  rewrite (proj2 (Z.eqb_neq c 46)), (proj2 (Z.eqb_neq c 48)) by lia.
  unfold is_digit. destruct ((48 <=? c) && (c <=? 57)) eqn:E; [reflexivity|lia].
Qed.

Definition signed_text (neg : bool) (l : list Z) : list Z := if neg then 45 :: l else l.
Definition num_state (neg rat : bool) : nstate :=
  mk_n 10 (if neg then -1 else 1) (if neg then 1 else 0) true rat false neg false 0.

Lemma run_mantissa : forall neg c l, 49 <= c <= 57 -> Forall digitlike l ->
  run (toks_plain (signed_text neg (c :: l))) 0 n_start = num_state neg false.
Proof.
  intros neg c l C F.
  destruct neg; unfold signed_text.
  - change (toks_plain (45 :: c :: l)) with ((false, 45) :: toks_plain (c :: l)). cbn [run].
    change (radix n_start =? 0) with false. cbv iota. change (c :: l) with ([c] ++ l).
    unfold toks_plain. rewrite map_app. fold (toks_plain [c]). fold (toks_plain l). rewrite run_app.
    rewrite run_first_digit; [|reflexivity|reflexivity|auto]. rewrite run_digits; auto.
  - change (c :: l) with ([c] ++ l).
    unfold toks_plain. rewrite map_app. fold (toks_plain [c]). fold (toks_plain l). rewrite run_app.
    rewrite run_first_digit; [|reflexivity|reflexivity|auto]. rewrite run_digits; auto.
Qed.

Lemma signed_plain : forall neg l, Forall digitlike l -> Forall plain (signed_text neg l).
Proof.
  intros neg l F. assert (G : Forall plain l) by (eapply Forall_impl; [apply digit_plain|exact F]).
  destruct neg; [|exact G]. constructor; [|exact G]. unfold plain. repeat split; lia.
Qed.

Lemma skip_sign : forall neg l, skipn (nfirst (num_state neg false)) (signed_text neg l) = l.
Proof. intros [] l; reflexivity. Qed.

Lemma signed_digits_text : forall z, z <> 0 ->
  signed_digits 10 z = signed_text (z <? 0) (digits 10 (Z.abs z)).
Proof.
  intros z NZ. unfold signed_digits, signed_text. destruct (z <? 0) eqn:E.
  - do 2 f_equal. lia.
  - f_equal. lia.
Qed.

Lemma read_printed_int : forall n z rest, canonical n -> is_int n z -> token_end rest ->
  read_symbol (signed_digits 10 z ++ rest) = ROk (SNum n) rest.
Proof.
  intros n z rest C I T.
  destruct (Z.eq_dec z 0) as [->|NZ].
  - assert (n = Fix 0).
    { destruct I as [->| ->]; [reflexivity|]. exfalso. apply C. unfold in_fixnum_range. lia. }
    subst n. change (signed_digits 10 0) with [48]. unfold read_symbol.
    replace ([48] ++ rest) with (flat (toks_plain [48]) ++ rest) by reflexivity.
    rewrite sym_toks; [reflexivity| |auto]. apply plain_toks_ok. constructor; [|constructor].
    apply digit_plain. unfold digitlike. lia.
  - rewrite signed_digits_text by auto.
    destruct (digits10 (Z.abs z) ltac:(lia)) as (c & l & -> & HC & FD & FN & V).
    inversion FD as [|? ? _ FL]; subst. set (neg := z <? 0).
    unfold read_symbol. rewrite <- (flat_plain (signed_text neg (c :: l))).
    rewrite sym_toks; [|apply plain_toks_ok, signed_plain, FD|auto].
    cbn [rev app]. rewrite snd_plain, run_mantissa by auto. unfold symbol_or_number.
    assert (LT : Nat.ltb (nfirst (num_state neg false)) (length (signed_text neg (c :: l))) = true)
      by (apply Nat.ltb_lt; destruct neg; simpl; lia).
    rewrite LT. change (0 <? radix (num_state neg false)) with true. cbn [andb]. rewrite skip_sign.
    change (radix (num_state neg false) =? 1) with false. change (negb (exact_ (num_state neg false))) with false.
    change (rational (num_state neg false)) with false. cbv iota.
    change (radix (num_state neg false)) with 10.
    assert (SG : sign (num_state neg false) = 1 \/ sign (num_state neg false) = -1) by (destruct neg; auto).
    destruct (parse_digits 10 (c :: l) (sign (num_state neg false)) ltac:(auto) SG ltac:(discriminate) FN)
      as (n' & E & C' & Q).
    rewrite E.
    assert (EQ : n' = n).
    { apply canonical_unique; auto. rewrite Q, V.
      assert (SZ : sign (num_state neg false) * Z.abs z = z) by (unfold neg; destruct (z <? 0) eqn:?; cbn [num_state sign]; lia).
      rewrite SZ. destruct I as [->| ->]; reflexivity. }
    subst n'. destruct (signed_text neg (c :: l)) eqn:ST; [destruct neg; discriminate|reflexivity].
Qed.

Lemma split_slash_digits : forall a b, Forall digitlike a -> split_slash (a ++ 47 :: b) = Some (a, b).
Proof.
  induction a as [|c a IH]; intros b F; [reflexivity|]. inversion F as [|? ? D]; subst. unfold digitlike in D.
  cbn [app split_slash]. rewrite (proj2 (Z.eqb_neq c 47)) by lia. rewrite IH by auto. reflexivity.
Qed.

Lemma Qfrac : forall n d, (inject_Z n / inject_Z (Zpos d) == n # d)%Q.
Proof.
  intros n d. unfold Qeq, Qdiv, Qmult, Qinv, inject_Z. cbn. rewrite Pos.mul_1_r || idtac. lia.
Qed.

Lemma read_printed_ratio : forall q rest, canonical (Rat q) -> token_end rest ->
  read_symbol (print_num (Rat q) ++ rest) = ROk (SNum (Rat q)) rest.
Proof.
  intros q rest C T. assert (C0 := C). destruct C as [RED DEN]. cbn [print_num].
  destruct q as [n d]. cbn [Qnum Qden] in *.
  assert (NZ : n <> 0).
  { intros ->. apply DEN. assert (Z0 : Qred (0 # d) = Qred (0 # 1)) by (apply Qred_complete; reflexivity).
    rewrite RED in Z0. change (Qred (0 # 1)) with (0 # 1) in Z0. congruence. }
  rewrite signed_digits_text by auto.
  destruct (digits10 (Z.abs n) ltac:(lia)) as (c & l & -> & HC & FD & FN & V).
  destruct (digits10 (Z.pos d) ltac:(lia)) as (c2 & l2 & -> & HC2 & FD2 & FN2 & V2).
  inversion FD as [|? ? _ FL]; subst. set (neg := n <? 0).
  set (num := signed_text neg (c :: l)). set (den := c2 :: l2).
  assert (PL : Forall plain (num ++ [47] ++ den)).
  { apply Forall_app. split; [apply signed_plain, FD|]. constructor.
    - unfold plain. repeat split; lia.
    - eapply Forall_impl; [apply digit_plain|exact FD2]. }
  unfold read_symbol. rewrite <- (flat_plain (num ++ [47] ++ den)).
  rewrite sym_toks; [|apply plain_toks_ok, PL|auto].
  cbn [rev app]. rewrite snd_plain.
  assert (RUN : run (toks_plain (num ++ 47 :: den)) 0 n_start = num_state neg true).
  { unfold toks_plain. rewrite map_app. fold (toks_plain num). rewrite run_app.
    unfold num at 2. rewrite run_mantissa by auto.
    cbn [map run]. change (radix (num_state neg false) =? 0) with false. cbv iota.
    fold (toks_plain den).
    assert (ST : n_step (length (toks_plain num) + 0) 47 (num_state neg false) = num_state neg true).
    { unfold n_step. change (one_of 47 [45; 43; 35]) with false. rewrite andb_false_r. reflexivity. }
    rewrite ST. apply run_digits; auto.
    unfold toks_plain. rewrite map_length. unfold num, signed_text. destruct neg; simpl; lia. }
  rewrite RUN. unfold symbol_or_number.
  assert (LT : Nat.ltb (nfirst (num_state neg true)) (length (num ++ 47 :: den)) = true).
  { apply Nat.ltb_lt. rewrite app_length. unfold num. destruct neg; simpl; lia. }
  rewrite LT. change (0 <? radix (num_state neg true)) with true. cbn [andb].
  change (radix (num_state neg true) =? 1) with false. change (negb (exact_ (num_state neg true))) with false.
  change (rational (num_state neg true)) with true. cbv iota.
  change (radix (num_state neg true)) with 10.
  assert (SK : skipn (nfirst (num_state neg true)) (num ++ 47 :: den) = (c :: l) ++ 47 :: den)
    by (unfold num; destruct neg; reflexivity).
  rewrite SK. unfold parse_rational. rewrite split_slash_digits by auto.
  unfold mpz_text. unfold den.
  rewrite (mpz_set_str_digits 10 (c :: l)), (mpz_set_str_digits 10 (c2 :: l2)) by (auto; lia).
  rewrite V, V2. cbn [Z.eqb].
  assert (EQ : (if sign (num_state neg true) <? 0 then Qred (- ratio (Z.abs n) (Z.pos d)) else ratio (Z.abs n) (Z.pos d)) = n # d).
  { unfold neg. destruct (n <? 0) eqn:S; cbn [num_state sign].
    - change (-1 <? 0) with true. cbv iota. rewrite <- RED. apply Qred_complete.
      unfold ratio. rewrite Qred_correct, Qfrac. unfold Qeq, Qopp. cbn [Qnum Qden]. lia.
    - change (1 <? 0) with false. cbv iota. unfold ratio. rewrite <- RED. apply Qred_complete.
      rewrite Qfrac. unfold Qeq. cbn [Qnum Qden]. lia. }
  rewrite EQ. cbn [maybe_demote Qden].
  assert (D1 : (d =? 1)%positive = false) by (apply Pos.eqb_neq; auto). rewrite D1.
  destruct (num ++ 47 :: c2 :: l2) eqn:ST; [unfold num in ST; destruct neg; discriminate|reflexivity].
Qed.

Lemma printed_num_start : forall n rest, canonical n ->
  exists c t, print_num n ++ rest = c :: t /\ delim c = false /\ c <> 63 /\ c <> 35 /\ starts_ok (c :: t).
Proof.
  intros n rest C.
  assert (S : forall z, exists c l, signed_digits 10 z = c :: l /\ (c = 45 \/ digitlike c)).
  { intros z. destruct (Z.eq_dec z 0) as [->|NZ]; [exists 48, []; split; [reflexivity|right; unfold digitlike; lia]|].
    rewrite signed_digits_text by auto. destruct (digits10 (Z.abs z) ltac:(lia)) as (c & l & -> & HC & _).
    unfold signed_text. destruct (z <? 0); eexists _, _; split; try reflexivity; [auto|right; unfold digitlike; lia]. }
  assert (H : exists z tl, print_num n = signed_digits 10 z ++ tl).
  { destruct n as [z|z|q].
    - exists z, []. rewrite app_nil_r. reflexivity.
    - exists z, []. rewrite app_nil_r. reflexivity.
    - eexists _, _. reflexivity. }
  destruct H as (z & tl & ->). destruct (S z) as (c & l & -> & D).
  exists c. eexists. split; [reflexivity|].
  assert (PL : plain c).
  { destruct D as [->|D]; [unfold plain; repeat split; lia|apply digit_plain, D]. }
  destruct PL as (P1 & P2 & P3 & P4).
  assert (W : white c = false) by (unfold delim in P1; destruct (white c); auto).
  unfold digitlike in D. repeat split; auto; try lia.
Qed.

(** *** The round trip *)

Definition print_cells (m : escape) : sexp -> list Z := fix cells (v : sexp) : list Z :=
  match v with
  | SCons a d =>
    match d with
    | SCons _ _ => print_val m a ++ [32] ++ cells d
    | SNil => print_val m a
    | _ => print_val m a ++ [32; 46; 32] ++ print_val m d
    end
  | _ => []
  end.
Definition print_vec (m : escape) : list sexp -> list Z := fix vec (l : list sexp) : list Z :=
  match l with
  | [] => []
  | [a] => print_val m a
  | a :: l' => print_val m a ++ [32] ++ vec l'
  end.
Lemma print_cons : forall m a d, print_val m (SCons a d) = [40] ++ print_cells m (SCons a d) ++ [41].
Proof. reflexivity. Qed.
Lemma print_vector : forall m l, print_val m (SVec l) = [91] ++ print_vec m l ++ [93].
Proof. reflexivity. Qed.
Lemma print_comp : forall m l, print_val m (SComp l) = [35; 91] ++ print_vec m l ++ [93].
Proof. reflexivity. Qed.

Definition of_list (l : list sexp) : sexp := fold_right SCons SNil l.
Lemma elements_of_list : forall l, elements (of_list l) = l.
Proof. induction l as [|a l IH]; [reflexivity|]. cbn. now f_equal. Qed.

Section Roundtrip.
Variable m : escape.

Definition reads_back (v : sexp) : Prop := exists f, forall rest, token_end rest ->
  readl f (print_val m v ++ rest) = ROk v rest.
Definition cells_back (v : sexp) : Prop := exists f, forall rest elems tail,
  read_list f (print_cells m v ++ 41 :: rest) elems tail = ROk (build elems v) rest.
Definition good (v : sexp) : Prop :=
  reads_back v /\ (forall rest, starts_ok (print_val m v ++ rest)) /\
  match v with SCons _ _ => cells_back v | _ => True end.
Definition goods (l : list sexp) : Prop := exists f, forall rest elems tail,
  tail = SNil \/ l <> [] ->
  read_list f (print_vec m l ++ 93 :: rest) elems tail = ROk (build elems (of_list l)) rest.

Lemma end32 : forall t, token_end (32 :: t). Proof. simpl; auto. Qed.
Lemma end41 : forall t, token_end (41 :: t). Proof. simpl; tauto. Qed.
Lemma end93 : forall t, token_end (93 :: t). Proof. simpl; tauto. Qed.

Lemma mono_ok : forall f f' text v t, (f <= f')%nat -> readl f text = ROk v t -> readl f' text = ROk v t.
Proof. intros f f' text v t L H. rewrite <- H. apply readl_mono; [auto|congruence]. Qed.
Lemma mono_list_ok : forall f f' text e tl v t, (f <= f')%nat -> read_list f text e tl = ROk v t ->
  read_list f' text e tl = ROk v t.
Proof. intros f f' text e tl v t L H. rewrite <- H. apply read_list_mono; [auto|congruence]. Qed.

Lemma list_white : forall f t e tl, read_list (S f) (32 :: t) e tl = read_list f t e tl.
Proof. reflexivity. Qed.
Lemma readl_white : forall f t, readl (S f) (32 :: t) = readl f t.
Proof. reflexivity. Qed.
Lemma list_end : forall f t e tl, read_list (S f) (41 :: t) e tl = ROk (build e tl) t.
Proof. reflexivity. Qed.
Lemma list_end93 : forall f t e tl, read_list (S f) (93 :: t) e tl = ROk (build e tl) t.
Proof. reflexivity. Qed.

Lemma cells_step : forall a d, good a -> good d -> cells_back (SCons a d).
Proof.
  intros a d (RA & SA & _) (RD & SD & CD). destruct RA as (fa & RA).
  assert (LAST : d = SNil -> cells_back (SCons a d)).
  { intros ->. exists (S (S fa)). intros rest elems tail. cbn [print_cells].
    erewrite list_element; [|apply SA|eapply mono_ok; [|apply RA, end41]; lia].
    rewrite list_end. reflexivity. }
  assert (DOT : print_cells m (SCons a d) = print_val m a ++ [32; 46; 32] ++ print_val m d ->
    cells_back (SCons a d)).
  { intros E. destruct RD as (fd & RD). exists (S (S (S (S (fa + fd))))). intros rest elems tail.
    rewrite E, <- !app_assoc. cbn [app].
    erewrite list_element; [|apply SA|eapply mono_ok; [|apply RA, end32]; lia].
    rewrite list_white.
    change (read_list (S (S (fa + fd))) (46 :: 32 :: print_val m d ++ 41 :: rest) (a :: elems) SNil) with
      (match readl (S (fa + fd)) (32 :: print_val m d ++ 41 :: rest) with
       | ROk v t' => read_list (S (fa + fd)) t' (a :: elems) v
       | r => r end).
    rewrite readl_white. erewrite mono_ok; [|shelve|apply RD, end41].
    rewrite list_end. reflexivity. Unshelve. lia. }
  destruct d; try (apply DOT; reflexivity); [apply LAST; reflexivity|].
  destruct CD as (fc & CD). exists (S (S (fa + fc))). intros rest elems tail.
  change (print_cells m (SCons a (SCons d1 d2))) with (print_val m a ++ [32] ++ print_cells m (SCons d1 d2)).
  rewrite <- !app_assoc. cbn [app].
  erewrite list_element; [|apply SA|eapply mono_ok; [|apply RA, end32]; lia].
  rewrite list_white. erewrite mono_list_ok; [|shelve|apply CD]. reflexivity. Unshelve. lia.
Qed.

Lemma vec_step : forall a l, good a -> goods l -> goods (a :: l).
Proof.
  intros a l (RA & SA & _) (fl & GL). destruct RA as (fa & RA).
  destruct l as [|b l].
  - exists (S (S fa)). intros rest elems tail _. cbn [print_vec].
    erewrite list_element; [|apply SA|eapply mono_ok; [|apply RA, end93]; lia].
    rewrite list_end93. reflexivity.
  - exists (S (S (fa + fl))). intros rest elems tail _.
    change (print_vec m (a :: b :: l)) with (print_val m a ++ [32] ++ print_vec m (b :: l)).
    rewrite <- !app_assoc. cbn [app].
    erewrite list_element; [|apply SA|eapply mono_ok; [|apply RA, end32]; lia].
    rewrite list_white. erewrite mono_list_ok; [|shelve|apply GL]; [reflexivity|auto]. Unshelve. lia.
Qed.

Scheme printable_mind := Minimality for printable Sort Prop
  with printables_mind := Minimality for printables Sort Prop.

Lemma literal_good : forall name, In name literals -> good (SLit name).
Proof.
  intros name I. split; [|split; [|exact Logic.I]].
  - exists 1%nat. intros rest T. unfold print_val.
    assert (SK : forall r, skip_chars [] r rest = ROk r rest).
    { intros r. destruct rest as [|c t]; [reflexivity|]. cbn [skip_chars]. now rewrite (token_end_delim c t T). }
    simpl in I. destruct I as [<-|[<-|[<-|[<-|[<-|[<-|[]]]]]]]; cbn [readl app lit_optional lit_rest lit_key lit_true lit_false lit_undefined];
      try reflexivity; repeat match goal with |- context [?a =? ?b] => let x := eval vm_compute in (a =? b) in change (a =? b) with x end;
      cbv iota; cbn [skip_chars]; rewrite ?Z.eqb_refl; try apply SK.
  - intros rest. simpl in I. destruct I as [<-|[<-|[<-|[<-|[<-|[<-|[]]]]]]];
      (repeat split; try discriminate; eexists _, _; split; [reflexivity|lia]).
Qed.

Lemma printable_good : forall v, printable v -> good v.
Proof.
  apply (printable_mind good goods).
  - (* nil *) split; [|split; [|exact I]].
    + exists 2%nat. intros rest T. reflexivity.
    + intros rest. repeat split; discriminate.
  - (* numbers *) intros n C. split; [|split; [|exact I]].
    + exists 1%nat. intros rest T. cbn [print_val].
      destruct (printed_num_start n rest C) as (c & t & E & D & N1 & N2 & S). rewrite E.
      apply readl_identifier; auto. rewrite <- E.
      destruct n as [z|z|q]; [apply read_printed_int; auto; left; auto|apply read_printed_int; auto; right; auto|].
      apply read_printed_ratio; auto.
    + intros rest. cbn [print_val]. destruct (printed_num_start n rest C) as (c & t & E & _ & _ & _ & S). now rewrite E.
  - (* strings *) intros s B. split; [|split; [|exact I]].
    + exists 1%nat. intros rest T. cbn [print_val]. rewrite print_string_head.
      change (readl 1 (34 :: tl (print_string m s) ++ rest)) with (read_str (tl (print_string m s) ++ rest)).
      apply print_read_str, B.
    + intros rest. repeat split; discriminate.
  - (* symbols *) intros name G. split; [|split; [|exact I]].
    + exists 1%nat. intros rest T. cbn [print_val].
      destruct (printed_symbol_start name rest G) as (c & t & E & D & N1 & N2 & S). rewrite E.
      apply readl_identifier; auto. rewrite <- E. apply read_printed_symbol; auto.
    + intros rest. cbn [print_val]. destruct (printed_symbol_start name rest G) as (c & t & E & _ & _ & _ & S). now rewrite E.
  - (* keywords *) intros r L B.
    assert (E : forall rest, exists t, print_val m (SKey (35 :: 58 :: r)) ++ rest = 35 :: 58 :: t).
    { intros rest. eexists. reflexivity. }
    split; [|split; [|exact I]].
    + exists 1%nat. intros rest T. pose proof (read_printed_key r rest L B T) as K.
      destruct (E rest) as (t & E'). rewrite E'.
      change (readl 1 (35 :: 58 :: t)) with
        (rd_map (fun v => match v with SSym n | SNew n => SKey n | _ => v end) (read_symbol (35 :: 58 :: t))).
      rewrite <- E'. change (print_val m (SKey (35 :: 58 :: r))) with (print_symbol (35 :: 58 :: r) true).
      rewrite K. reflexivity.
    + intros rest. destruct (E rest) as (t & ->). repeat split; try discriminate.
      intros _. exists 58, t. split; [auto|lia].
  - apply literal_good.
  - (* pairs *) intros a d _ GA _ GD. pose proof (cells_step a d GA GD) as C.
    split; [|split; [|exact C]].
    + destruct C as (f & C). exists (S f). intros rest T. rewrite print_cons, <- !app_assoc. cbn [app].
      change (readl (S f) (40 :: print_cells m (SCons a d) ++ 41 :: rest)) with
        (read_list f (print_cells m (SCons a d) ++ 41 :: rest) [] SNil).
      rewrite C. reflexivity.
    + intros rest. repeat split; discriminate.
  - (* vectors *) intros l _ (f & G). split; [|split; [|exact I]].
    + exists (S f). intros rest T. rewrite print_vector, <- !app_assoc. cbn [app].
      change (readl (S f) (91 :: print_vec m l ++ 93 :: rest)) with
        (rd_map (fun l => SVec (elements l)) (read_list f (print_vec m l ++ 93 :: rest) [] SNil)).
      rewrite G by auto. cbn [rd_map build fold_left]. now rewrite elements_of_list.
    + intros rest. repeat split; discriminate.
  - (* bytecode *) intros code consts n l _ (f & G). split; [|split; [|exact I]].
    + exists (S f). intros rest T. rewrite print_comp, <- !app_assoc. cbn [app].
      set (all := SStr code :: SVec consts :: SNum (Fix n) :: l) in *.
      change (readl (S f) (35 :: 91 :: print_vec m all ++ 93 :: rest)) with
        (match read_list f (print_vec m all ++ 93 :: rest) [] SNil with
            | ROk l t'' => if compiled_ok (elements l) then ROk (SComp (elements l)) t'' else RErr
            | r => r
            end).
      rewrite G by auto. cbn [build fold_left]. rewrite elements_of_list. reflexivity.
    + intros rest. rewrite print_comp, <- !app_assoc. cbn [app].
      repeat split; try discriminate. intros _. eexists _, _. split; [reflexivity|lia].
  - exists 1%nat. intros rest elems tail [->|NE]; [|congruence]. reflexivity.
  - intros a l _ GA _ GL. apply vec_step; auto.
Qed.

End Roundtrip.

Lemma print_read : forall m v rest fuel, printable v -> token_end rest ->
  (2 * length (print_val m v ++ rest) + 1 <= fuel)%nat ->
  Fread fuel (print_val m v ++ rest) = ROk v rest.
Proof.
  intros m v rest fuel P T L. destruct (printable_good m v P) as ((f & R) & _).
  apply (readl_suffice f); auto.
Qed.

Lemma print_lines_read : forall m vs fuel, Forall printable vs ->
  (2 * length (concat (map (print_line m) vs)) + 1 <= fuel)%nat ->
  reads fuel (concat (map (print_line m) vs)) vs.
Proof.
  intros m vs fuel. induction vs as [|v vs IH]; intros F L; cbn [map concat reads].
  - destruct fuel; [simpl in L; lia|]. reflexivity.
  - inversion F; subst. cbn [map concat] in L. rewrite app_length in L.
    exists (concat (map (print_line m) vs)). split; [|apply IH; [auto|lia]].
    unfold print_line at 1. cbn [app]. unfold Fread.
    set (rest := concat (map (print_line m) vs)).
    assert (T : token_end rest) by (destruct vs; simpl; auto).
    change (length (print_line m v)) with (S (length (print_val m v))) in L.
    destruct fuel as [|fuel]; [lia|].
    change (readl (S fuel) (10 :: print_val m v ++ rest)) with (readl fuel (print_val m v ++ rest)).
    apply print_read; auto. rewrite app_length. unfold rest. lia.
Qed.

(** ** Blanks and abbreviations *)

Lemma comment_block : forall a, block a -> forall d rest, 0 < d ->
  read_comment 124 (a ++ 124 :: 35 :: rest) d =
  if d - 1 =? 0 then Some rest else read_comment 124 (35 :: rest) (d - 1).
Proof.
  induction 1 as [|c b N1 N2 _ IH|a b _ IHa _ IHb]; intros d rest D.
  - reflexivity.
  - cbn [app read_comment]. rewrite (proj2 (Z.eqb_neq c 124) N1), (proj2 (Z.eqb_neq c 35) N2). apply IH, D.
  - cbn [app]. rewrite <- !app_assoc. cbn [app].
    replace (read_comment 124 (35 :: 124 :: a ++ 124 :: 35 :: 32 :: b ++ 124 :: 35 :: rest) d)
      with (read_comment 124 (a ++ 124 :: 35 :: 32 :: b ++ 124 :: 35 :: rest) (d + 1)) by reflexivity.
    rewrite IHa by lia. destruct (d + 1 - 1 =? 0) eqn:E; [lia|].
    replace (d + 1 - 1) with d by lia.
    replace (read_comment 124 (35 :: 32 :: b ++ 124 :: 35 :: rest) d)
      with (read_comment 124 (b ++ 124 :: 35 :: rest) d) by reflexivity.
    apply IHb, D.
Qed.

Lemma skip_line_spec : forall l nl b, Forall (fun c => ~ In c [10; 12; 13]) l -> In nl [10; 12; 13] ->
  skip_line (l ++ nl :: b) = b.
Proof.
  induction l as [|c l IH]; intros nl b F I; cbn [app skip_line].
  - apply one_of_In in I. now rewrite I.
  - inversion F as [|? ? N F']; subst. destruct (one_of c [10; 12; 13]) eqn:O.
    + apply one_of_In in O. contradiction.
    + apply IH; auto.
Qed.

Lemma blank_skip : forall b, blank b -> forall text f v rest, readl f text = ROk v rest ->
  exists f', readl f' (b ++ text) = ROk v rest.
Proof.
  induction 1 as [|c b I _ IH|l nl b F I _ IH|a b B _ IH]; intros text f v rest H.
  - exists f. exact H.
  - destruct (IH text f v rest H) as (f' & E). exists (S f').
    assert (W : white c = true) by (apply one_of_In; exact I).
    cbn [app readl]. rewrite W. exact E.
  - destruct (IH text f v rest H) as (f' & E). exists (S f').
    change ((59 :: l ++ nl :: b) ++ text) with (59 :: (l ++ nl :: b) ++ text).
    rewrite <- app_assoc. cbn [app].
    change (readl (S f') (59 :: l ++ nl :: b ++ text)) with (readl f' (skip_line (l ++ nl :: b ++ text))).
    rewrite skip_line_spec; auto.
  - destruct (IH text f v rest H) as (f' & E). exists (S f').
    rewrite <- !app_assoc. cbn [app].
    change (readl (S f') (35 :: 124 :: a ++ 124 :: 35 :: b ++ text)) with
      (match read_comment 124 (a ++ 124 :: 35 :: b ++ text) 1 with Some t'' => readl f' t'' | None => RErr end).
    rewrite comment_block by (auto; lia). exact E.
Qed.

Lemma blank_print_read : forall m b v rest fuel, blank b -> printable v -> token_end rest ->
  (2 * length (b ++ print_val m v ++ rest) + 1 <= fuel)%nat ->
  Fread fuel (b ++ print_val m v ++ rest) = ROk v rest.
Proof.
  intros m b v rest fuel B P T L. destruct (printable_good m v P) as ((f & R) & _).
  destruct (blank_skip b B (print_val m v ++ rest) f v rest (R rest T)) as (f' & E).
  apply (readl_suffice f'); auto.
Qed.

Lemma abbreviation_read : forall m p name v rest fuel, In (p, name) abbreviations ->
  printable v -> token_end rest ->
  (2 * length (p ++ print_val m v ++ rest) + 1 <= fuel)%nat ->
  Fread fuel (p ++ print_val m v ++ rest) = ROk (SCons (SSym name) (SCons v SNil)) rest.
Proof.
  intros m p name v rest fuel I P T L. destruct (printable_good m v P) as ((f & R) & _).
  specialize (R rest T).
  assert (E : exists f', readl f' (p ++ print_val m v ++ rest) = ROk (list2 (SSym name) v) rest).
  { exists (S (S f)). cbn [abbreviations In] in I.
    destruct I as [E|[E|[E|[E|[E|[]]]]]]; inversion E; subst; cbn [app].
    - change (readl (S (S f)) (39 :: print_val m v ++ rest)) with
        (rd_map (list2 (SSym sym_quote)) (readl (S f) (print_val m v ++ rest))).
      rewrite (mono_ok f (S f) _ v rest) by (auto; lia). reflexivity.
    - change (readl (S (S f)) (96 :: print_val m v ++ rest)) with
        (rd_map (list2 (SSym sym_backquote)) (readl (S f) (print_val m v ++ rest))).
      rewrite (mono_ok f (S f) _ v rest) by (auto; lia). reflexivity.
    - change (readl (S (S f)) (44 :: 32 :: print_val m v ++ rest)) with
        (rd_map (list2 (SSym sym_unquote)) (readl f (print_val m v ++ rest))).
      rewrite R. reflexivity.
    - change (readl (S (S f)) (44 :: 64 :: print_val m v ++ rest)) with
        (rd_map (list2 (SSym sym_splice)) (readl (S f) (print_val m v ++ rest))).
      rewrite (mono_ok f (S f) _ v rest) by (auto; lia). reflexivity.
    - change (readl (S (S f)) (35 :: 39 :: print_val m v ++ rest)) with
        (rd_map (list2 (SSym sym_function)) (readl (S f) (print_val m v ++ rest))).
      rewrite (mono_ok f (S f) _ v rest) by (auto; lia). reflexivity. }
  destruct E as (f' & E). apply (readl_suffice f'); auto.
Qed.

Lemma fread_string : forall m s rest fuel, Forall byte s -> (1 <= fuel)%nat ->
  Fread fuel (print_val m (SStr s) ++ rest) = ROk (SStr s) rest.
Proof.
  intros m s rest [|fuel] B L; [lia|]. cbn [print_val]. rewrite print_string_head.
  change (Fread (S fuel) (34 :: tl (print_string m s) ++ rest)) with (read_str (tl (print_string m s) ++ rest)).
  apply print_read_str, B.
Qed.

Lemma reader_stops : forall fuel text, (2 * length text + 1 <= fuel)%nat ->
  match Fread fuel text with
  | ROk _ rest => (length rest < length text)%nat
  | RErr => True
  | RFuel => False
  end.
Proof.
  intros fuel [|c t] L.
  - destruct fuel; [simpl in L; lia|]. exact I.
  - simpl in L. pose proof (proj1 (reader_total fuel) c t ltac:(lia)) as F.
    unfold Fread. destruct (readl fuel (c :: t)); simpl in *; auto. lia.
Qed.

(** symbol_print's buffer *)
Lemma print_name_bound : forall l first key, (length (print_name l first key) <= 2 * length l)%nat.
Proof.
  induction l as [|c l IH]; intros first key; cbn [print_name]; [simpl; lia|].
  destruct (c =? 0); [simpl; lia|]. rewrite app_length. specialize (IH false key).
  match goal with |- context [if ?b then [92; c] else [c]] => destruct b end; simpl; lia.
Qed.

Lemma print_symbol_bound : forall name key, (length (print_symbol name key) <= 2 * length name)%nat.
Proof.
  intros [|c r] key; [simpl; lia|]. unfold print_symbol. destruct (escape_first (c :: r)) eqn:E.
  - apply escape_first_head in E. cbn [print_name].
    assert (C : (c =? 0) = false).
    { unfold is_digit in E. cbn [In] in E. lia. }
    rewrite C.
    assert (O : one_of c [32; 9; 10; 12; 40; 41; 91; 93; 39; 34; 59; 92; 124; 44; 96]
      || (if c =? 35 then negb (key && true) else is_cntrl c) = false).
    { apply orb_false_iff. unfold is_digit in E. cbn [In] in E. split.
      - apply not_true_is_false. rewrite one_of_In. cbn [In]. lia.
      - destruct (c =? 35) eqn:?; [lia|]. unfold is_cntrl. lia. }
    rewrite O, !app_length. pose proof (print_name_bound r false key). simpl. lia.
  - rewrite app_length. pose proof (print_name_bound (c :: r) true key). simpl in *. lia.
Qed.
