(** Proofs about strings: parts, sums, comparing, completing, translating. *)
From Coq Require Import ZArith List Bool Lia ZifyBool.
From Verif Require Import Strings_Model Strings_Spec Strings_Proofs.
Import ListNotations.
Open Scope Z_scope.

(** * substring *)

Lemma forall_firstn {A} (P : A -> Prop) : forall n l, Forall P l -> Forall P (firstn n l).
Proof. induction n as [ | n IH]; intros [ | x l] F; cbn [firstn]; auto. inversion F; subst. constructor; auto. Qed.
Lemma forall_skipn {A} (P : A -> Prop) : forall n l, Forall P l -> Forall P (skipn n l).
Proof. induction n as [ | n IH]; intros [ | x l] F; cbn [skipn]; auto. inversion F; subst. auto. Qed.

Definition slice (b : list Z) (a e : Z) : list Z := firstn (Z.to_nat (e - a)) (skipn (Z.to_nat a) b).
Lemma slice_split : forall b a e, 0 <= a <= e -> e <= zlen b ->
  exists x y, b = x ++ slice b a e ++ y /\ zlen x = a /\ zlen (slice b a e) = e - a.
Proof.
  intros b a e H L. exists (firstn (Z.to_nat a) b), (skipn (Z.to_nat (e - a)) (skipn (Z.to_nat a) b)).
  unfold slice. rewrite firstn_skipn, firstn_skipn. split; [reflexivity | ]. unfold zlen in *. rewrite !firstn_length, skipn_length. lia.
Qed.
Lemma slice_unique : forall b a e x m y, b = x ++ m ++ y -> zlen x = a -> zlen m = e - a -> slice b a e = m.
Proof.
  intros b a e x m y -> X M. unfold slice, zlen in *. replace (Z.to_nat a) with (length x) by lia. rewrite skipn_app, skipn_all, Nat.sub_diag. cbn [skipn app].
  replace (Z.to_nat (e - a)) with (length m) by lia. rewrite firstn_app, firstn_all, Nat.sub_diag. cbn [firstn]. apply app_nil_r.
Qed.

Lemma substring_ok : forall h p a e, sound h -> zlen (text h p) < 2 ^ 31 ->
  (0 <= a <= e /\ e <= zlen (text h p) /\ fresh_string h (substring h (VStr p) (VInt a) (VInt e)) (slice (text h p) a e))
  \/ ~ (0 <= a <= e /\ e <= zlen (text h p)) /\ substring h (VStr p) (VInt a) (VInt e) = (Sig, h).
Proof.
  intros h p a e S L. unfold substring. fold (text h p). destruct (sound_str h p S) as [B Ln]. fold (text h p) in B, Ln.
  rewrite wrap32_id by (unfold zlen in *; lia).
  destruct ((zlen (text h p) <? a) || (a <? 0)) eqn:E1; [right; split; [lia | reflexivity] | ].
  destruct ((zlen (text h p) <? e) || (e <? a)) eqn:E2; [right; split; [lia | reflexivity] | ].
  left. split; [lia | ]. split; [lia | ]. apply new_str_ok; [exact S | apply forall_firstn, forall_skipn, B | ].
  destruct (slice_split (text h p) a e ltac:(lia) ltac:(lia)) as (x & y & _ & _ & Lm). unfold slice, text in *. rewrite Lm. lia.
Qed.
Lemma substring_end : forall h p a, substring h (VStr p) (VInt a) nil = substring h (VStr p) (VInt a) (VInt (wrap32 (zlen (text h p)))).
Proof.
  intros h p a. unfold substring, nil. fold (text h p). destruct ((wrap32 (zlen (text h p)) <? a) || (a <? 0)) eqn:E; [reflexivity | ].
  replace ((wrap32 (zlen (text h p)) <? wrap32 (zlen (text h p))) || (wrap32 (zlen (text h p)) <? a)) with false by lia. reflexivity.
Qed.

(** * concat *)

Lemma letters_chars : forall l b, letters l b <-> b = chars l.
Proof.
  intros l b. split.
  - induction 1 as [ | c l b _ IH | v l b N _ IH]; [reflexivity | | ]; cbn [chars flat_map]; fold (chars l).
    + cbn [app]. now f_equal.
    + destruct v; try exact IH. now destruct (N z).
  - intros ->. induction l as [ | v l IH]; [constructor | ]. cbn [chars flat_map]. fold (chars l). destruct v; cbn [app]; constructor; auto; discriminate.
Qed.
Lemma chars_length : forall l, (length (chars l) <= length l)%nat.
Proof. induction l as [ | v l IH]; [auto | ]. cbn [chars flat_map]. fold (chars l). rewrite app_length. destruct v; cbn [length]; lia. Qed.
Lemma chars_bytes : forall l, Forall byte (chars l).
Proof.
  induction l as [ | v l IH]; [constructor | ]. cbn [chars flat_map]. fold (chars l). destruct v; cbn [app]; auto. constructor; auto.
  unfold byte. pose proof (Z.mod_pos_bound z 256 ltac:(lia)). lia.
Qed.
Lemma firstn_zlen {A} : forall l : list A, firstn (Z.to_nat (zlen l)) l = l.
Proof. intros l. unfold zlen. rewrite Nat2Z.id. apply firstn_all. Qed.

Lemma concat_bytes_ok : forall h v b, sound h -> (concat_bytes h v = Some b <-> spelled h v b).
Proof.
  intros h v b S. split.
  - intros E. destruct v as [c | p | p | l | i]; cbn [concat_bytes] in E.
    + injection E as <-. constructor.
    + injection E as <-. constructor.
    + rewrite (sound_vec h p S), Z.ltb_irrefl, firstn_zlen in E. destruct (v_compiled (get_vec h p)) eqn:C; injection E as <-; [now constructor | ]. constructor; [exact C | now apply letters_chars].
    + injection E as <-. constructor. now apply letters_chars.
    + injection E as <-. constructor.
  - intros Sp. destruct Sp; cbn [concat_bytes]; auto.
    + rewrite H. rewrite (sound_vec h p S), Z.ltb_irrefl, firstn_zlen. apply letters_chars in H0. now subst.
    + now rewrite H.
    + apply letters_chars in H. now subst.
Qed.
Lemma spelled_bytes : forall h v b, sound h -> spelled h v b -> Forall byte b /\ zlen b <= concat_len h v.
Proof.
  intros h v b S Sp. destruct Sp; cbn [concat_len].
  - split; [ | reflexivity]. constructor; [ | constructor]. unfold byte. pose proof (Z.mod_pos_bound c 256 ltac:(lia)). lia.
  - split; [apply (sound_str h p S) | unfold text; lia].
  - rewrite H. apply letters_chars in H0. subst. split; [apply chars_bytes | ]. rewrite (sound_vec h p S). unfold zlen. pose proof (chars_length (v_slots (get_vec h p))). lia.
  - rewrite H. split; [constructor | reflexivity].
  - apply letters_chars in H. subst. split; [apply chars_bytes | ]. unfold zlen. pose proof (chars_length l). lia.
  - split; [constructor | reflexivity].
Qed.
Lemma concat_len_size : forall h v, sound h -> 0 <= concat_len h v <= size h v.
Proof.
  intros h v S. destruct v as [c | p | p | l | i]; cbn [concat_len size elements]; unfold zlen; rewrite ?map_length; try lia.
  destruct (v_compiled (get_vec h p)); [lia | ]. rewrite (sound_vec h p S). unfold zlen. lia.
Qed.
Definition lens (h : heap) (l : list val) : Z := fold_right (fun v n => concat_len h v + n) 0 l.
Lemma lens_sizes : forall h l, sound h -> 0 <= lens h l <= sizes h l.
Proof. intros h l S. induction l as [ | v l IH]; cbn [lens sizes fold_right]; [lia | ]. fold (lens h l) (sizes h l). pose proof (concat_len_size h v S). lia. Qed.
Lemma fold_lens : forall h l n, 0 <= n < 2 ^ 32 -> fold_left (fun n v => (n + concat_len h v) mod 2 ^ 32) l n = (n + lens h l) mod 2 ^ 32.
Proof.
  intros h l. induction l as [ | v l IH]; intros n H; cbn [fold_left lens fold_right].
  - rewrite Z.add_0_r, Z.mod_small; auto.
  - fold (lens h l). rewrite IH by (apply Z.mod_pos_bound; lia). rewrite Zplus_mod_idemp_l. f_equal. lia.
Qed.
Lemma concat_write_ok : forall h args bs, sound h -> Forall2 (spelled h) args bs ->
  concat_write h args = Some (List.concat bs) /\ Forall byte (List.concat bs) /\ zlen (List.concat bs) <= lens h args.
Proof.
  intros h args bs S F. induction F as [ | v b args bs Sp F (IH1 & IH2 & IH3)]; cbn [concat_write List.concat lens fold_right].
  - split; [reflexivity | ]. split; [constructor | reflexivity].
  - fold (lens h args). rewrite (proj2 (concat_bytes_ok h v b S) Sp), IH1. destruct (spelled_bytes h v b S Sp) as [B L].
    split; [reflexivity | ]. split; [apply Forall_app; auto | ]. unfold zlen in *. rewrite app_length. lia.
Qed.
Lemma null_ok : forall h, sound h -> string_of h (Ret null_string, h) [].
Proof.
  intros h S. pose proof S as ((l & E) & _). exists 0%nat. cbn [fst snd live]. unfold text, get_str. rewrite E. cbn [nth s_bytes length].
  split; [reflexivity | ]. split; [reflexivity | ]. split; [lia | ]. split; [split; auto | ]. split; [exact S | congruence].
Qed.
Lemma fresh_string_of : forall h r b, fresh_string h r b -> string_of h r b.
Proof.
  intros h r b (p & F & T & C). pose proof F as (F1 & F2 & F3 & F4 & F5 & F6 & F7). exists p. repeat (split; auto). intros _. exists p. auto.
Qed.
Lemma concat_ok : forall h args bs, sound h -> Forall2 (spelled h) args bs -> sizes h args < 2 ^ 32 - 1 ->
  string_of h (concat h args) (List.concat bs).
Proof.
  intros h args bs S F L. pose proof (lens_sizes h args S) as Ls. destruct (concat_write_ok h args bs S F) as (W & B & Lb).
  unfold concat. rewrite fold_lens by lia. rewrite Z.add_0_l, (Z.mod_small (lens h args)) by lia. destruct (Z.eqb_spec (lens h args) 0) as [E | N].
  - assert (List.concat bs = []) as -> by (apply length_zero_iff_nil; unfold zlen in Lb; lia). now apply null_ok.
  - rewrite W. rewrite Z.mod_small by lia. replace (zlen (List.concat bs) + 1 <=? lens h args + 1) with true by lia.
    apply fresh_string_of, new_str_ok; auto. lia.
Qed.

(** * Comparing *)

Lemma head_eq_ok : forall a b, no_zero a -> no_zero b -> (string_head_eq a b = true <-> prefix_of b a).
Proof.
  unfold string_head_eq, c_string. induction a as [ | x a IH]; intros [ | y b] Na Nb; cbn [app head_eq_loop].
  - split; [exists []; reflexivity | reflexivity].
  - inversion Nb as [ | ? ? [By Zy] Nb']; subst. replace (y =? 0) with false by lia. replace (0 =? y) with false by lia. split; [discriminate | intros (r & E); discriminate].
  - inversion Na as [ | ? ? [Bx Zx] Na']; subst. replace (x =? 0) with false by lia. cbn. split; [exists (x :: a); reflexivity | reflexivity].
  - inversion Na as [ | ? ? [Bx Zx] Na']; subst. inversion Nb as [ | ? ? [By Zy] Nb']; subst.
    replace (x =? 0) with false by lia. replace (y =? 0) with false by lia. cbn [negb andb]. destruct (Z.eqb_spec x y) as [<- | N].
    + rewrite (IH b Na' Nb'). split; intros (r & E); exists r; [cbn; now rewrite E | now injection E].
    + split; [discriminate | ]. intros (r & E). injection E as E _. congruence.
Qed.

Lemma until_zero_id : forall s, no_zero s -> until_zero s = s.
Proof. induction 1 as [ | c s [_ Z0] _ IH]; [reflexivity | ]. cbn [until_zero]. replace (c =? 0) with false by lia. now rewrite IH. Qed.

Section Order.
  Variable toupper : Z -> Z.
  Let k (s : list Z) := map (fun c => toupper (schar c)) (until_zero s).
  Lemma equal_ok : forall a b, string_equal toupper a b = true <-> k a = k b.
  Proof.
    unfold string_equal, c_string, k. induction a as [ | x a IH]; intros [ | y b]; cbn [app equal_loop until_zero map].
    - split; reflexivity.
    - destruct (Z.eqb_spec y 0) as [-> | N]; cbn; [split; reflexivity | split; discriminate].
    - destruct (Z.eqb_spec x 0) as [-> | N]; cbn; [split; reflexivity | split; discriminate].
    - destruct (Z.eqb_spec x 0) as [-> | N], (Z.eqb_spec y 0) as [-> | M]; cbn [negb andb orb map]; try (split; (reflexivity || discriminate)).
      destruct (Z.eqb_spec (toupper (schar x)) (toupper (schar y))) as [E | D].
      + rewrite IH. split; [intros ->; now rewrite E | intros H; now injection H].
      + split; [discriminate | intros H; injection H; congruence].
  Qed.
  Lemma lessp_ok : forall a b, string_lessp toupper a b = true <-> lex (k a) (k b).
  Proof.
    unfold string_lessp, c_string, k. induction a as [ | x a IH]; intros [ | y b]; cbn [app lessp_loop until_zero map].
    - split; [discriminate | intros H; inversion H].
    - destruct (Z.eqb_spec y 0) as [-> | N]; cbn; [split; [discriminate | intros H; inversion H] | split; [constructor | reflexivity]].
    - destruct (Z.eqb_spec x 0) as [-> | N]; cbn; split; (discriminate || intros H; inversion H).
    - destruct (Z.eqb_spec x 0) as [-> | N], (Z.eqb_spec y 0) as [-> | M]; cbn [negb andb map];
        try (split; [discriminate | intros H; inversion H]); try (split; [constructor | reflexivity]).
      destruct (Z.eqb_spec (toupper (schar x)) (toupper (schar y))) as [E | D].
      + rewrite IH. rewrite E. split; [now constructor | ]. intros H. inversion H; subst; [lia | assumption].
      + split.
        * intros H. apply Lex_here. lia.
        * intros H. inversion H; subst; [lia | congruence].
  Qed.
End Order.

Lemma lex_irrefl : forall a, ~ lex a a.
Proof. induction a as [ | x a IH]; intros H; inversion H; subst; [lia | auto]. Qed.
Lemma lex_trans : forall a b c, lex a b -> lex b c -> lex a c.
Proof.
  intros a b c H. revert c. induction H as [y b | x y a b L | x a b H IH]; intros c H'; inversion H'; subst;
    try solve [apply Lex_end | apply Lex_here; lia | apply Lex_later; auto].
Qed.
Lemma lex_total : forall a b, lex a b \/ a = b \/ lex b a.
Proof.
  induction a as [ | x a IH]; intros [ | y b]; auto.
  - left. constructor.
  - right; right. constructor.
  - destruct (Z.lt_trichotomy x y) as [L | [<- | L]]; [left; now constructor | | right; right; now constructor].
    destruct (IH b) as [H | [<- | H]]; [left; now constructor | auto | right; right; now constructor].
Qed.

(** * complete-string *)

Fixpoint lcp (a b : list Z) : nat :=
  match a, b with x :: a, y :: b => if x =? y then S (lcp a b) else 0%nat | _, _ => 0%nat end.
Lemma lcp_prefix : forall n a b, (n <= length a)%nat -> (prefix_of (firstn n a) b <-> (n <= lcp a b)%nat).
Proof.
  induction n as [ | n IH]; intros [ | x a] b H; cbn [length firstn] in *; try lia.
  - split; [lia | exists b; reflexivity].
  - split; [lia | exists b; reflexivity].
  - destruct b as [ | y b]; cbn [lcp].
    + split; [intros (r & E); discriminate | lia].
    + destruct (Z.eqb_spec x y) as [<- | N].
      * rewrite <- Nat.succ_le_mono, <- (IH a b) by lia. split; intros (r & E); exists r; [now injection E | cbn; now rewrite E].
      * split; [intros (r & E); injection E as E _; congruence | lia].
Qed.
Lemma lcp_app : forall p a b, lcp (p ++ a) (p ++ b) = (length p + lcp a b)%nat.
Proof. induction p as [ | x p IH]; intros a b; cbn [app lcp length]; [reflexivity | ]. now rewrite Z.eqb_refl, IH. Qed.
Lemma lcp_le : forall a b, (lcp a b <= length a)%nat.
Proof. induction a as [ | x a IH]; intros [ | y b]; cbn [lcp length]; try lia. destruct (x =? y); [pose proof (IH b)|]; lia. Qed.
Lemma key_length : forall f s, length (key f s) = length s.
Proof. intros [ | ] s; cbn [key]; [apply map_length | reflexivity]. Qed.
Lemma key_firstn : forall f n s, key f (firstn n s) = firstn n (key f s).
Proof. intros [ | ] n s; cbn [key]; [symmetry; apply firstn_map | reflexivity]. Qed.
Lemma key_app : forall f a b, key f (a ++ b) = key f a ++ key f b.
Proof. intros [ | ] a b; cbn [key]; [apply map_app | reflexivity]. Qed.

Lemma key_skipn : forall f n s, key f (skipn n s) = skipn n (key f s).
Proof. intros [ | ] n s; cbn [key]; [symmetry; apply skipn_map | reflexivity]. Qed.

Section Complete.
  Variable tolower : Z -> Z.
  Hypothesis low : lower_library tolower.
  Variable fold : bool.
  Local Notation plain := (plain fold).
  Lemma plain_cons : forall c s, plain (c :: s) -> c <> 0 /\ byte c /\ (fold = true -> ascii c) /\ plain s.
  Proof.
    intros c s [N A]. inversion N as [ | ? ? [B Z0] N']; subst. split; [exact Z0 | ]. split; [exact B | ]. split.
    - intros E. specialize (A E). now inversion A.
    - split; [exact N' | ]. intros E. specialize (A E). now inversion A.
  Qed.
  Lemma low_ascii : forall c, ascii c -> tolower c = lower c /\ tolower (schar c) = lower c.
  Proof. intros c H. unfold ascii in H. unfold schar. replace (c <? 128) with true by lia. split; apply low; lia. Qed.
  Lemma key_cons : forall c s, key fold (c :: s) = (if fold then lower c else c) :: key fold s.
  Proof. intros. destruct fold; reflexivity. Qed.

  Lemma strn_ok : forall a b, plain a -> plain b ->
    (strn_eq tolower fold (length a) (c_string a) (c_string b) = true <-> prefix_of (key fold a) (key fold b)).
  Proof.
    unfold c_string. induction a as [ | x a IH]; intros b Pa Pb; cbn [length strn_eq app].
    - split; [ | reflexivity]. intros _. exists (key fold b). destruct fold; reflexivity.
    - destruct (plain_cons x a Pa) as (Zx & Bx & Ax & Pa'). rewrite key_cons. destruct b as [ | y b]; cbn [app].
      + assert (E : (if fold then tolower x =? tolower 0 else x =? 0) = false).
        { unfold plain in *. destruct fold; [ | lia]. destruct (low_ascii x (Ax eq_refl)) as [-> _]. rewrite (low 0) by lia. specialize (Ax eq_refl). unfold ascii, lower in *.
          destruct ((65 <=? x) && (x <=? 90)) eqn:?; cbn; lia. }
        rewrite E. split; [discriminate | ]. intros (r & H). destruct fold; discriminate.
      + destruct (plain_cons y b Pb) as (Zy & By & Ay & Pb'). rewrite key_cons.
        assert (E : (if fold then tolower x =? tolower y else x =? y) = ((if fold then lower x else x) =? (if fold then lower y else y))).
        { destruct fold; [ | reflexivity]. destruct (low_ascii x (Ax eq_refl)) as [-> _]. destruct (low_ascii y (Ay eq_refl)) as [-> _]. reflexivity. }
        rewrite E. replace (x =? 0) with false by lia. destruct (Z.eqb_spec (if fold then lower x else x) (if fold then lower y else y)) as [Q | Q].
        * rewrite (IH b Pa' Pb'). split; intros (r & H); exists r; [cbn; now rewrite Q, H | now injection H].
        * split; [discriminate | ]. intros (r & H). injection H as H _. congruence.
  Qed.
  Lemma common_ok : forall a b, plain a -> plain b -> common tolower fold (c_string a) (c_string b) = lcp (key fold a) (key fold b).
  Proof.
    unfold c_string. induction a as [ | x a IH]; intros b Pa Pb.
    - cbn [app common]. destruct (b ++ [0]); [destruct fold; reflexivity | ]. cbn. destruct fold; reflexivity.
    - destruct (plain_cons x a Pa) as (Zx & Bx & Ax & Pa'). rewrite key_cons. destruct b as [ | y b]; cbn [app common].
      + replace (0 =? 0) with true by reflexivity. rewrite orb_true_r. destruct fold; reflexivity.
      + destruct (plain_cons y b Pb) as (Zy & By & Ay & Pb'). rewrite key_cons. replace (x =? 0) with false by lia. replace (y =? 0) with false by lia. cbn [orb lcp].
        assert (E : (if fold then tolower (schar x) =? tolower (schar y) else x =? y) = ((if fold then lower x else x) =? (if fold then lower y else y))).
        { destruct fold; [ | reflexivity]. destruct (low_ascii x (Ax eq_refl)) as [_ ->]. destruct (low_ascii y (Ay eq_refl)) as [_ ->]. reflexivity. }
        rewrite E. clear E. destruct ((if fold then lower x else x) =? (if fold then lower y else y)); [now rewrite IH | reflexivity].
  Qed.
  Lemma plain_skipn : forall n s, plain s -> plain (skipn n s).
  Proof. intros n s [N A]. split; [apply forall_skipn, N | ]. intros E. apply forall_skipn, A, E. Qed.
  Lemma strlen_ok : forall s, no_zero s -> strlen s = zlen s.
  Proof. induction 1 as [ | c s [_ Z0] _ IH]; [reflexivity | ]. cbn [strlen]. replace (c =? 0) with false by lia. rewrite IH. unfold zlen. cbn [length]. lia. Qed.

  Variable orig : list Z.
  Hypothesis Po : plain orig.
  Definition hit (t : list Z) : Prop := prefix_of (key fold orig) (key fold t).
  Definition best (ts : list (list Z)) (m : option (list Z * Z)) : Prop :=
    match m with
    | None => forall t, In t ts -> ~ hit t
    | Some (mt, ml) => exists l1 l2, ts = l1 ++ mt :: l2 /\ (forall t, In t l1 -> ~ hit t) /\ hit mt /\ plain mt /\
        zlen orig <= ml <= zlen mt /\
        (forall n, (n <= length mt)%nat -> ((n <= Z.to_nat ml)%nat <-> (forall t, In t ts -> hit t -> prefix_of (key fold (firstn n mt)) (key fold t))))
    end.
  Lemma hit_length : forall t, hit t -> (length orig <= length t)%nat.
  Proof. intros t (r & E). apply (f_equal (@length Z)) in E. rewrite app_length, !key_length in E. lia. Qed.
  Lemma hit_key : forall t, hit t -> key fold t = key fold orig ++ key fold (skipn (length orig) t).
  Proof.
    intros t (r & E). rewrite key_skipn, E. rewrite <- (key_length fold orig). rewrite skipn_app, skipn_all, Nat.sub_diag. reflexivity.
  Qed.
  Lemma lcp_hits : forall m t, plain m -> plain t -> hit m -> hit t ->
    (length orig + common tolower fold (c_string (skipn (length orig) m)) (c_string (skipn (length orig) t)))%nat = lcp (key fold m) (key fold t).
  Proof.
    intros m t Pm Pt Hm Ht. rewrite (hit_key m Hm), (hit_key t Ht), lcp_app, key_length. f_equal. apply common_ok; now apply plain_skipn.
  Qed.

  Lemma loop_ok : forall h args ts m, Forall plain (strings h args) -> (forall t, In t (strings h args) -> zlen t < 2 ^ 31) -> best ts m ->
    exists m', complete_loop tolower h orig fold args m = Some m' /\ best (ts ++ strings h args) m'.
  Proof.
    intros h. induction args as [ | v args IH]; intros ts m F L B.
    - exists m. cbn [complete_loop strings flat_map]. now rewrite app_nil_r.
    - destruct v as [c | p | p | l | i]; try (apply IH; assumption).
      cbn [complete_loop]. change (strings h (VStr p :: args)) with (text h p :: strings h args) in *. inversion F as [ | ? ? Pt F']; subst. fold (text h p).
      set (t := text h p) in *. assert (Lt : zlen t < 2 ^ 31) by (apply L; left; reflexivity).
      assert (L' : forall t, In t (strings h args) -> zlen t < 2 ^ 31) by (intros; apply L; now right).
      replace (ts ++ t :: strings h args) with ((ts ++ [t]) ++ strings h args) by now rewrite <- app_assoc.
      pose proof (strn_ok orig t Po Pt) as Q. fold (hit t) in Q. destruct (strn_eq tolower fold (length orig) (c_string orig) (c_string t)).
      + assert (Ht : hit t) by now apply Q. destruct m as [[mt ml] | ].
        * destruct B as (l1 & l2 & -> & N1 & Hm & Pm & R & K).
          pose proof (hit_length t Ht). pose proof (hit_length mt Hm).
          replace ((length t <? length orig)%nat || (length mt <? length orig)%nat) with false by lia.
          apply IH; auto. exists l1, (l2 ++ [t]). split; [now rewrite <- app_assoc | ]. split; [exact N1 | ]. split; [exact Hm | ]. split; [exact Pm | ].
          pose proof (lcp_hits mt t Pm Pt Hm Ht) as E. pose proof (lcp_le (key fold mt) (key fold t)) as Le. rewrite key_length in Le.
          unfold zlen in *. set (d := common tolower fold _ _) in *. split; [destruct (Z.ltb_spec (Z.of_nat (length orig) + Z.of_nat d) ml); lia | ].
          intros n Hn. assert (X : prefix_of (key fold (firstn n mt)) (key fold t) <-> (n <= lcp (key fold mt) (key fold t))%nat).
          { rewrite key_firstn. apply lcp_prefix. now rewrite key_length. }
          specialize (K n Hn). split.
          -- intros Q' u I Hu. apply in_app_or in I. destruct I as [I | [<- | []]].
             ++ apply K; auto. destruct (Z.ltb_spec (Z.of_nat (length orig) + Z.of_nat d) ml); lia.
             ++ apply X. destruct (Z.ltb_spec (Z.of_nat (length orig) + Z.of_nat d) ml); lia.
          -- intros All. assert (X1 : (n <= Z.to_nat ml)%nat) by (apply K; intros u I Hu; apply All; auto; apply in_or_app; now left).
             assert (X2 : (n <= lcp (key fold mt) (key fold t))%nat) by (apply X, All; auto; apply in_or_app; right; now left).
             destruct (Z.ltb_spec (Z.of_nat (length orig) + Z.of_nat d) ml); lia.
        * apply IH; auto. exists ts, []. split; [reflexivity | ]. split; [exact B | ]. split; [exact Ht | ]. split; [exact Pt | ].
          rewrite strlen_ok by apply Pt. rewrite wrap32_id by (unfold zlen in *; lia). pose proof (hit_length t Ht). unfold zlen. split; [lia | ].
          intros n Hn. split; [ | intros _; lia]. intros _ u I Hu. apply in_app_or in I. destruct I as [I | [<- | []]]; [now destruct (B u I) | ].
          rewrite key_firstn. exists (skipn n (key fold t)). symmetry. apply firstn_skipn.
      + assert (Ht : ~ hit t) by (intros H; apply Q in H; discriminate). apply IH; auto. destruct m as [[mt ml] | ].
        * destruct B as (l1 & l2 & -> & N1 & Hm & Pm & R & K). exists l1, (l2 ++ [t]). split; [now rewrite <- app_assoc | ]. split; [exact N1 | ]. split; [exact Hm | ]. split; [exact Pm | ].
          split; [exact R | ]. intros n Hn. rewrite (K n Hn). split; intros All u I Hu.
          -- apply in_app_or in I. destruct I as [I | [<- | []]]; [now apply All | contradiction].
          -- apply All; auto. apply in_or_app. now left.
        * intros u I. apply in_app_or in I. destruct I as [I | [<- | []]]; [now apply B | exact Ht].
  Qed.
End Complete.

Lemma complete_ok : forall tolower h p l fold, sound h -> lower_library tolower ->
  Forall (plain (match fold with VList [] => false | _ => true end)) (text h p :: strings h l) ->
  (forall t, In t (strings h l) -> zlen t < 2 ^ 31) ->
  let fo := match fold with VList [] => false | _ => true end in
  let r := complete_string tolower h (VStr p) (VList l) fold in
  (r = (Ret nil, h) /\ (forall t, In t (strings h l) -> ~ prefix_of (key fo (text h p)) (key fo t))) \/
  (exists b, completes fo (text h p) (strings h l) b /\ fresh_string h r b).
Proof.
  intros tolower h p l fold S Lo F L fo r. fold fo in F. inversion F as [ | ? ? Po Fs]; subst.
  destruct (loop_ok tolower Lo fo (text h p) Po h l [] None Fs L) as (m & E & B); [intros t [] | ]. cbn [app] in B.
  unfold r, complete_string. fold (text h p) fo. rewrite E. destruct m as [[mt ml] | ].
  - right. destruct B as (l1 & l2 & E1 & N1 & Hm & Pm & R & K). exists (firstn (Z.to_nat ml) mt).
    assert (LL : (Z.to_nat ml <= length mt)%nat) by (unfold zlen in R; lia). split.
    + exists l1, mt, l2. split; [exact E1 | ]. split; [exact N1 | ]. split; [exact Hm | ]. split; [exists (skipn (Z.to_nat ml) mt); symmetry; apply firstn_skipn | ].
      split.
      * rewrite key_firstn. pose proof (hit_key fo (text h p) mt Hm) as HK. rewrite HK. rewrite firstn_app.
        rewrite firstn_all2 by (rewrite key_length; unfold zlen in R; lia). eexists. reflexivity.
      * split; [now apply K | ]. intros b' (r' & Eb) All.
        assert (Eb' : b' = firstn (length b') mt) by (rewrite Eb, firstn_app, firstn_all, Nat.sub_diag; cbn [firstn]; now rewrite app_nil_r).
        assert (Lb : (length b' <= length mt)%nat) by (rewrite Eb, app_length; lia).
        rewrite firstn_length. assert ((length b' <= Z.to_nat ml)%nat); [ | lia]. apply K; [exact Lb | ]. rewrite <- Eb'. exact All.
    + apply new_str_ok; auto.
      * apply forall_firstn. destruct Pm as [N _]. eapply Forall_impl; [ | exact N]. cbn. tauto.
      * assert (I : In mt (strings h l)) by (rewrite E1; apply in_or_app; right; now left). specialize (L mt I). unfold zlen in *. rewrite firstn_length. lia.
  - left. split; [reflexivity | exact B].
Qed.

(** * translate-string *)

Lemma translated_nth : forall table c, 0 <= c -> translated table c = if c <? zlen table then nth (Z.to_nat c) table 0 else c.
Proof.
  intros table c H. unfold translated. destruct (Z.ltb_spec c (zlen table)).
  - apply nth_indep. unfold zlen in *. lia.
  - apply nth_overflow. unfold zlen in *. lia.
Qed.
Lemma set_nth_app {A} : forall (a : list A) x b y, set_nth (a ++ x :: b) (length a) y = a ++ y :: b.
Proof. induction a as [ | z a IH]; intros; cbn [app length set_nth]; [reflexivity | now rewrite IH]. Qed.
Lemma set_set {A} : forall (l : list A) n x y, set_nth (set_nth l n x) n y = set_nth l n y.
Proof. induction l as [ | z l IH]; intros [ | n] x y; cbn [set_nth]; auto. now rewrite IH. Qed.
Lemma set_same {A} : forall (l : list A) n d, (n < length l)%nat -> set_nth l n (nth n l d) = l.
Proof. induction l as [ | z l IH]; intros [ | n] d H; cbn [set_nth nth length] in *; auto; try lia. rewrite IH; auto. lia. Qed.

Lemma translate_loop_ok : forall table todo done h p tp, (p < length (strs h))%nat -> p <> tp -> text h tp = table -> Forall byte todo ->
  text h p = done ++ todo ->
  translate_loop (length todo) (length done) h p tp (zlen table) = set_str h p (mkstr (done ++ map (translated table) todo) (s_const (get_str h p))).
Proof.
  intros table. induction todo as [ | c todo IH]; intros done h p tp Lp N T B E; cbn [length translate_loop map].
  - unfold set_str. rewrite app_nil_r in *. replace (mkstr done (s_const (get_str h p))) with (get_str h p).
    + unfold get_str. rewrite set_same by exact Lp. now destruct h.
    + unfold text in E. destruct (get_str h p). cbn in *. now rewrite E.
  - unfold text in *. rewrite E. rewrite app_nth2, Nat.sub_diag by lia. cbn [nth]. rewrite T. inversion B as [ | ? ? Bc B']; subst.
    rewrite <- translated_nth by (unfold byte in Bc; lia). rewrite set_nth_app.
    set (h1 := set_str h p (mkstr (done ++ translated (s_bytes (get_str h tp)) c :: todo) (s_const (get_str h p)))).
    assert (G : forall q, get_str h1 q = if Nat.eqb p q then mkstr (done ++ translated (s_bytes (get_str h tp)) c :: todo) (s_const (get_str h p)) else get_str h q) by (intros; now apply get_set_str).
    specialize (IH (done ++ [translated (s_bytes (get_str h tp)) c]) h1 p tp).
    rewrite app_length in IH. cbn [length] in IH. rewrite Nat.add_1_r in IH. rewrite IH; auto.
    + unfold h1 at 2. rewrite get_set_str by exact Lp. rewrite Nat.eqb_refl. cbn [s_const]. unfold h1, set_str. cbn [strs vecs]. rewrite set_set.
      now rewrite <- app_assoc.
    + unfold h1, set_str. cbn [strs]. now rewrite set_nth_length.
    + rewrite G. destruct (Nat.eqb_spec p tp); [contradiction | reflexivity].
    + rewrite G, Nat.eqb_refl. cbn [s_bytes]. now rewrite <- app_assoc.
Qed.

Lemma translated_byte : forall table c, Forall byte table -> byte c -> byte (translated table c).
Proof.
  intros table c F B. unfold translated. destruct (Nat.lt_ge_cases (Z.to_nat c) (length table)).
  - rewrite Forall_forall in F. apply F, nth_In. assumption.
  - now rewrite nth_overflow.
Qed.
Lemma translate_ok : forall h p tp, sound h -> constant h (VStr p) = false -> p <> tp ->
  zlen (text h p) < 2 ^ 31 -> zlen (text h tp) < 2 ^ 31 ->
  exists h', translate_string h (VStr p) (VStr tp) = (Ret (VStr p), h') /\ sound h' /\
    text h' p = map (translated (text h tp)) (text h p) /\ constant h' (VStr p) = false /\
    (forall v, v <> VStr p -> elements h' v = elements h v /\ constant h' v = constant h v) /\
    h' = set_str h p (mkstr (map (translated (text h tp)) (text h p)) false).
Proof.
  intros h p tp S C N L Lt. unfold translate_string. cbn [constant] in C. rewrite C. fold (text h p) (text h tp). rewrite !wrap32_id by (unfold zlen in *; lia).
  pose proof (get_str_live h p C) as Lp. destruct (sound_str h p S) as [B Ln]. destruct (sound_str h tp S) as [Bt _].
  replace (Z.to_nat (zlen (text h p))) with (length (text h p)) by (unfold zlen; lia).
  pose proof (translate_loop_ok (text h tp) (text h p) [] h p tp Lp N eq_refl B eq_refl) as E. cbn [length app] in E. rewrite E, C. clear E.
  eexists. split; [reflexivity | ].
  assert (G : forall q, get_str (set_str h p (mkstr (map (translated (text h tp)) (text h p)) false)) q = if Nat.eqb p q then mkstr (map (translated (text h tp)) (text h p)) false else get_str h q) by (intros; now apply get_set_str).
  split; [ | split; [ | split; [ | split]]].
  - apply sound_set_str; auto; cbn [s_bytes].
    + apply Forall_forall. intros y I. apply in_map_iff in I. destruct I as (c & <- & I). apply translated_byte; [exact Bt | ]. rewrite Forall_forall in B. auto.
    + unfold zlen in *. rewrite map_length. exact Ln.
  - unfold text in G |- *. now rewrite G, Nat.eqb_refl.
  - cbn [constant]. now rewrite G, Nat.eqb_refl.
  - intros v Nv. destruct v as [ | q | q | | ]; auto. cbn [elements constant]. rewrite !G. destruct (Nat.eqb_spec p q) as [<- | _]; [congruence | auto].
  - reflexivity.
Qed.

(** * string-util.jl *)

Lemma table_nth : forall f c, byte c -> nth (Z.to_nat c) (map (fun i => f (Z.of_nat i) mod 256) (seq 0 256)) c = f c mod 256.
Proof.
  intros f c B. unfold byte in B. rewrite (nth_indep _ c (f (Z.of_nat 0) mod 256)) by (rewrite map_length, seq_length; lia).
  rewrite (map_nth (fun i => f (Z.of_nat i) mod 256) (seq 0 256) 0%nat). rewrite seq_nth by lia. cbn [Nat.add]. now rewrite Z2Nat.id by lia.
Qed.
Lemma upcase_ok : forall f h up p, sound h -> text h up = map (fun i => f (Z.of_nat i) mod 256) (seq 0 256) -> (up < length (strs h))%nat -> zlen (text h p) < 2 ^ 31 ->
  fresh_string h (string_upcase h (VStr up) (VStr p)) (map (fun c => f c mod 256) (text h p)).
Proof.
  intros f h up p S T Lu L. unfold string_upcase. cbn [copy_sequence]. fold (text h p).
  destruct (sound_str h p S) as [B Ln]. fold (text h p) in B, Ln. destruct (new_str_ok h (text h p) S B Ln) as (q & F & Tq & C).
  destruct F as (F1 & F2 & F3 & F4 & F5 & F6 & F7). destruct (new_str h (text h p)) as [r h1]. cbn [fst snd] in *. subst r. cbn [bind].
  assert (Nq : q <> up) by (intros <-; apply F2; exact Lu).
  assert (Tu : text h1 up = text h up) by (unfold text; now rewrite (proj1 F6 up Lu)).
  destruct (translate_ok h1 q up F7 C Nq ltac:(now rewrite Tq) ltac:(rewrite Tu, T; reflexivity)) as (h2 & E & S2 & T2 & C2 & K2 & Eh2). rewrite E.
  assert (TT : map (translated (text h1 up)) (text h1 q) = map (fun c => f c mod 256) (text h p)).
  { rewrite Tq, Tu, T. apply map_ext_in. intros c I. rewrite Forall_forall in B. unfold translated. apply table_nth. now apply B. }
  assert (Lq : (q < length (strs h1))%nat) by exact F3.
  exists q. cbn [fst snd]. split; [ | split; [congruence | exact C2]].
  split; [reflexivity | ]. split; [exact F2 | ]. split; [ | split; [reflexivity | split; [ | split; [ | exact S2]]]].
  - cbn [fst snd live]. rewrite Eh2. unfold set_str. cbn [strs]. rewrite set_nth_length. exact Lq.
  - cbn [fst snd elements]. unfold text in T2, TT. now rewrite T2, TT.
  - cbn [fst snd]. destruct F6 as [K1 K1']. split; intros x Hx.
    + rewrite <- (K1 x Hx). rewrite Eh2, get_set_str by exact Lq. destruct (Nat.eqb_spec q x) as [<- | _]; [ | reflexivity]. now destruct F2.
    + rewrite <- (K1' x Hx). rewrite Eh2. reflexivity.
Qed.
Lemma capitalize_ok : forall toupper h p c s, sound h -> text h p = c :: s ->
  fresh_string h (capitalize_string toupper h (VStr p)) (toupper c mod 256 :: s).
Proof.
  intros toupper h p c s S T. unfold capitalize_string. cbn [length_ bind]. fold (text h p). rewrite T.
  replace (zlen (c :: s) =? 0) with false by (unfold zlen; cbn [length]; lia). cbn [copy_sequence]. fold (text h p). rewrite T.
  destruct (sound_str h p S) as [B Ln]. fold (text h p) in B, Ln. rewrite T in B, Ln. destruct (new_str_ok h (c :: s) S B Ln) as (q & F & Tq & C).
  destruct F as (F1 & F2 & F3 & F4 & F5 & F6 & F7). destruct (new_str h (c :: s)) as [r h1]. cbn [fst snd] in *. subst r. cbn [bind].
  assert (Lq : (q < length (strs h1))%nat) by exact F3.
  rewrite (aref_ok h1 (VStr q) 0 F7). cbn [arrayp andb]. rewrite F5. cbn [map nth_error Z.to_nat Z.leb Z.compare bind char_upcase].
  inversion B as [ | ? ? Bc Bs]; subst. rewrite wrap32_id by (unfold byte in Bc; lia).
  destruct (aset_ok h1 (VStr q) 0 (VInt (toupper c)) F7) as [(_ & h2 & E & S2 & E2 & K2 & C2 & L2 & L2') | (Nx & _)].
  - rewrite E. cbn [bind]. assert (Eh2 : h2 = set_str h1 q (mkstr (toupper c mod 256 :: s) false)).
    { unfold aset in E. cbn [constant] in C. rewrite C in E. unfold text in Tq. rewrite Tq in E. cbn [Z.ltb Z.compare] in E.
      replace (0 <? zlen (c :: s)) with true in E by (unfold zlen; cbn [length]; lia). cbn in E. now injection E as <-. }
    assert (T2 : text h2 q = toupper c mod 256 :: s) by (unfold text; now rewrite Eh2, get_set_str, Nat.eqb_refl).
    exists q. cbn [fst snd]. split; [ | split; [exact T2 | now rewrite C2]].
    split; [reflexivity | ]. split; [exact F2 | ]. split; [ | split; [reflexivity | split; [ | split; [ | exact S2]]]].
    + cbn [fst snd live]. now rewrite L2.
    + cbn [fst snd elements]. unfold text in T2. now rewrite T2.
    + cbn [fst snd]. destruct F6 as [K1 K1']. split; intros x Hx.
      * rewrite <- (K1 x Hx). rewrite Eh2, get_set_str by exact Lq. destruct (Nat.eqb_spec q x) as [<- | _]; [ | reflexivity]. now destruct F2.
      * rewrite <- (K1' x Hx). rewrite Eh2. reflexivity.
  - destruct Nx. unfold settable. rewrite F5. cbn [arrayp]. split; [reflexivity | ]. split; [exact C | ]. split; [unfold zlen; cbn [map length]; lia | eauto].
Qed.
Lemma case_loop_ok : forall good bad s seen,
  case_loop good bad s seen = true <-> (forall c, In c s -> bad c = false) /\ (seen = true \/ exists c, In c s /\ good c = true).
Proof.
  intros good bad. induction s as [ | c s IH]; intros seen; cbn [case_loop].
  - split; [intros ->; split; [intros c [] | auto] | intros [_ [H | (c & [] & _)]]; exact H].
  - destruct (bad c) eqn:B.
    + split; [discriminate | ]. intros [H _]. rewrite (H c) in B by now left. discriminate.
    + rewrite IH, orb_true_iff. split.
      * intros [H [[H1 | H1] | (d & I & H1)]]; (split; [intros e [<- | J]; auto | ]).
        -- auto.
        -- right. exists c. split; [now left | exact H1].
        -- right. exists d. split; [now right | exact H1].
      * intros [H [H1 | (d & [<- | I] & H1)]]; (split; [intros e J; apply H; now right | ]); auto. right. eauto.
Qed.

(** * mapconcat *)

Lemma map_list_ok : forall f sep l acc x, map_list f sep l (x :: acc) = rev acc ++ between sep (x :: map f l).
Proof.
  intros f sep. induction l as [ | y l IH]; intros acc x; cbn [map_list map between].
  - reflexivity.
  - rewrite IH. cbn [rev]. rewrite <- !app_assoc. reflexivity.
Qed.
Lemma between_spelled : forall h sep sb l bs, spelled h sep sb -> Forall2 (spelled h) l bs ->
  exists cs, Forall2 (spelled h) (between sep l) cs /\ List.concat cs = intercalate sb bs.
Proof.
  intros h sep sb l bs Ss F. induction F as [ | v b l bs Sp F (cs & IH1 & IH2)].
  - exists []. split; [constructor | reflexivity].
  - destruct F as [ | w b' l bs Sp' F].
    + exists [b]. split; [constructor; [exact Sp | constructor] | cbn; now rewrite app_nil_r].
    + exists (b :: sb :: cs). split; [cbn [between]; constructor; [exact Sp | constructor; [exact Ss | exact IH1]] | ].
      cbn [List.concat intercalate]. rewrite IH2. reflexivity.
Qed.
Lemma map_array_ok : forall f h a sep n i acc x, sound h -> arrayp a = true -> (0 <= i) -> zlen (elements h a) = i + Z.of_nat n ->
  map_array n f h a sep i (x :: acc) = (Ret nil, rev acc ++ between sep (x :: map f (skipn (Z.to_nat i) (elements h a)))).
Proof.
  intros f h a sep. induction n as [ | n IH]; intros i acc x So A Hi L; cbn [map_array].
  - rewrite skipn_all2 by (unfold zlen in L; lia). reflexivity.
  - unfold elt. rewrite A. rewrite (aref_ok h a i So), A. replace (0 <=? i) with true by lia. cbn [andb].
    destruct (nth_error (elements h a) (Z.to_nat i)) as [y | ] eqn:E; [ | apply nth_error_None in E; unfold zlen in L; lia].
    rewrite IH by (auto; lia). f_equal. replace (Z.to_nat (i + 1)) with (S (Z.to_nat i)) by lia.
    assert (Sk : skipn (Z.to_nat i) (elements h a) = y :: skipn (S (Z.to_nat i)) (elements h a)).
    { clear - E. revert E. generalize (elements h a). generalize (Z.to_nat i). induction n as [ | n IH]; intros [ | z l] E; try discriminate.
      - now injection E as ->.
      - exact (IH l E). }
    rewrite Sk. cbn [map rev between]. rewrite <- !app_assoc. reflexivity.
Qed.
Lemma mapconcat_ok : forall h f s sep sb bs, sound h -> sequence s -> spelled h sep sb -> Forall2 (fun x b => spelled h (f x) b) (items h s) bs ->
  sizes h (between sep (map f (items h s))) < 2 ^ 32 - 1 ->
  string_of h (mapconcat h f s sep) (intercalate sb bs).
Proof.
  intros h f s sep sb bs S Q Ss F L.
  assert (F' : Forall2 (spelled h) (map f (items h s)) bs) by (clear - F; induction F; constructor; auto).
  destruct (between_spelled h sep sb _ bs Ss F') as (cs & Fc & Ec). rewrite <- Ec.
  assert (ARR : arrayp s = true -> string_of h (match length_ h s with
        | Ret (VInt n) =>
            if n =? 0 then (Ret null_string, h)
            else match elt h s (VInt 0) with
                 | Ret x =>
                     match map_array (Z.to_nat n - 1) f h s sep 1 [f x] with
                     | (Ret _, frags) => concat h frags
                     | (r, _) => (r, h)
                     end
                 | r => (r, h)
                 end
        | r => (r, h)
        end) (List.concat cs)).
  { intros A. assert (I : items h s = elements h s) by (destruct s; try discriminate; reflexivity). rewrite I in *. rewrite (length_ok h s S A).
    destruct (Z.eqb_spec (zlen (elements h s)) 0) as [Z0 | NZ].
    - assert (elements h s = []) as E0 by (apply length_zero_iff_nil; unfold zlen in Z0; lia). rewrite E0 in Fc. cbn in Fc. inversion Fc; subst. now apply null_ok.
    - unfold elt. rewrite A, (aref_ok h s 0 S), A. cbn [andb Z.leb Z.compare Z.to_nat]. destruct (elements h s) as [ | y l] eqn:E0; [now destruct NZ | ]. cbn [nth_error].
      rewrite map_array_ok; auto; [ | lia | rewrite E0; unfold zlen; cbn [length]; lia].
      cbn [rev app]. rewrite E0. change (Z.to_nat 1) with 1%nat. cbn [skipn]. apply concat_ok; auto. }
  destruct s as [ | p | p | l | ]; try contradiction; try exact (ARR eq_refl). cbn [items] in *. cbn [mapconcat]. destruct l as [ | x l].
  - cbn in Fc. inversion Fc; subst. now apply null_ok.
  - rewrite map_list_ok. cbn [rev app]. apply concat_ok; auto.
Qed.
