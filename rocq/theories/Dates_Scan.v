(** The regexps of parse-date: what they find in which texts. *)
From Coq Require Import ZArith List Bool Lia ZifyBool.
From Verif Require Import Regexp_Model Regexp_Spec Regexp_Props Dates_Model Dates_Spec.
Import ListNotations.
Open Scope Z_scope.

Definition c_blank := [CChr 9; CChr 32].
Definition c_digit := [CRange 48 57].
Definition c_upper := [CRange 65 90].
Definition c_lower := [CRange 97 122].
Definition c_sign := [CChr 43; CChr 45].
Notation P := Piece.
Notation G b := (Grp (Alt1 b)).
Definition sp : atom := Cls false c_blank.
Definition dg : atom := Cls false c_digit.
Definition star := Star Greedy.
Definition plus := Plus Greedy.
Definition opt := Opt Greedy.

Definition r_number : regex :=
  Alt1 (P sp star (P (G (P dg plus Nil)) One (P (Grp (Alt (P sp plus Nil) (Alt1 (P Eol One Nil)))) One Nil))).
Definition r_time : regex :=
  Alt1 (P sp star (P (G (P dg plus Nil)) One (P (Lit [58]) One (P (G (P dg plus Nil)) One
    (P (G (P (Lit [58]) One (P dg plus Nil))) opt (P sp star
      (P (Grp (Alt (P (Cls false c_upper) plus Nil) (Alt1 (P (Cls false c_sign) One (P dg plus Nil))))) opt (P sp star Nil)))))))).
Fixpoint alts (n : list Z) (l : list (list Z)) : regex :=
  match l with [] => Alt1 (P (Lit n) One Nil) | m :: l => Alt (P (Lit n) One Nil) (alts m l) end.
Definition days_in_order := [[84; 117; 101]; [87; 101; 100]; [84; 104; 117]; [70; 114; 105]; [83; 97; 116]; [83; 117; 110]].
Definition r_day : regex :=
  Alt1 (P sp star (P (Grp (alts [77; 111; 110] days_in_order)) One (P (Cls false c_lower) star
    (P sp star (P (Lit [44]) opt (P sp star Nil)))))).
Definition months_in_order :=
  [[70; 101; 98]; [77; 97; 114]; [65; 112; 114]; [77; 97; 121]; [74; 117; 110]; [74; 117; 108]; [65; 117; 103];
   [83; 101; 112]; [79; 99; 116]; [78; 111; 118]; [68; 101; 99]].
Definition r_month : regex :=
  Alt1 (P sp star (P (Grp (alts [74; 97; 110] months_in_order)) One (P (Cls false c_lower) star (P sp star Nil)))).
Definition two := P dg One (P dg One Nil).
Definition four := P dg One (P dg One (P dg One (P dg One Nil))).
Definition r_iso : regex :=
  Alt1 (P sp star (P (G four) One (P (Lit [45]) One (P (G two) One (P (Lit [45]) One (P (G two) One (P sp star Nil))))))).
Definition r_offset : regex := Alt1 (P (Cls false c_sign) One (P (G two) One (P (G two) One Nil))).

Lemma shown : show r_number = re_number /\ show r_time = re_time /\ show r_day = re_day /\ show r_month = re_month /\
  show r_iso = re_iso /\ show r_offset = re_offset.
Proof. repeat split. Qed.

Ltac goods := cbn; unfold char, special; cbn;
  repeat match goal with
  | |- _ /\ _ => split
  | |- _ -> _ => intro
  | |- Forall _ _ => constructor
  | |- ~ _ => intro
  end; try discriminate; try lia; auto 10; try (intuition lia).
Ltac fit t C := unfold fits; repeat split; try exact C; try (vm_compute; reflexivity); try (cbn; lia); goods.

Lemma number_fits : forall t b, Forall char t -> fits r_number t b.
Proof. intros t b C. fit t C. Qed.
Lemma time_fits : forall t b, Forall char t -> fits r_time t b.
Proof. intros t b C. fit t C. Qed.
Lemma day_fits : forall t b, Forall char t -> fits r_day t b.
Proof. intros t b C. fit t C. Qed.
Lemma month_fits : forall t b, Forall char t -> fits r_month t b.
Proof. intros t b C. fit t C. Qed.
Lemma iso_fits : forall t b, Forall char t -> fits r_iso t b.
Proof. intros t b C. fit t C. Qed.
Lemma offset_fits : forall t b, Forall char t -> fits r_offset t b.
Proof. intros t b C. fit t C. Qed.

Section Scan.
  Variable t : list Z.
  Variable nocase at_start : bool.
  Notation ways := (ways t nocase at_start).
  Notation ways_branch := (ways_branch t nocase at_start).
  Notation ways_atom := (ways_atom t nocase at_start).
  Notation times := (times t).
  Notation literal := (literal t nocase).

  (** The text from position i on is s *)
  Definition at_ (i : Z) (s : list Z) : Prop := exists pre, t = pre ++ s /\ i = Z.of_nat (length pre).

  Lemma at_char : forall i s, at_ i s -> char_at t i = hd_error s.
  Proof.
    intros i s (pre & -> & ->). unfold char_at. destruct (Z.ltb_spec (Z.of_nat (length pre)) 0); [lia | ].
    rewrite Nat2Z.id, nth_error_app2, Nat.sub_diag by lia. destruct s; reflexivity.
  Qed.
  Lemma at_app : forall i xs s, at_ i (xs ++ s) -> at_ (i + Z.of_nat (length xs)) s.
  Proof.
    intros i xs s (pre & E & ->). exists (pre ++ xs). split; [now rewrite <- app_assoc | ]. rewrite app_length. lia.
  Qed.
  Lemma at_cons : forall i c s, at_ i (c :: s) -> at_ (i + 1) s.
  Proof. intros i c s A. exact (at_app i [c] s A). Qed.
  Lemma at_length : forall i s, at_ i s -> i + Z.of_nat (length s) = Z.of_nat (length t).
  Proof. intros i s (pre & -> & ->). rewrite app_length. lia. Qed.
  (** Inside a run *)
  Lemma at_inside : forall i xs s k, at_ i (xs ++ s) -> (k < length xs)%nat ->
    exists c s', In c xs /\ at_ (i + Z.of_nat k) (c :: s').
  Proof.
    intros i xs s k A L. pose proof (firstn_skipn k xs) as F. destruct (skipn k xs) as [ | c r] eqn:E.
    - apply (f_equal (@length Z)) in E. rewrite skipn_length in E. cbn in E. lia.
    - exists c, (r ++ s). split; [rewrite <- F; apply in_or_app; right; now left | ].
      rewrite <- F, <- app_assoc in A. apply at_app in A. rewrite firstn_length_le in A by lia. exact A.
  Qed.

  Definition starts (p : Z -> bool) (s : list Z) : bool := match s with c :: _ => p c | [] => false end.
  Definition cls (l : list citem) (x : Z) : bool := existsb (in_item x) l.

  Lemma one_at : forall f i s, at_ i s -> one t f i = match s with c :: _ => if f c then [(i + 1, [])] else [] | [] => [] end.
  Proof. intros f i s A. unfold one. rewrite (at_char i s A). destruct s; reflexivity. Qed.

  Lemma and_then_hd : forall l f e ev j ev', hd_error l = Some (e, ev) -> hd_error (f e) = Some (j, ev') ->
    hd_error (and_then l f) = Some (j, ev ++ ev').
  Proof.
    intros [ | w l] f e ev j ev' H1 H2; [discriminate | ]. injection H1 as ->. unfold and_then. cbn [flat_map fst snd].
    destruct (f e) as [ | w' l']; [discriminate | ]. injection H2 as ->. reflexivity.
  Qed.
  Lemma and_then_nil : forall l f, (forall e ev, In (e, ev) l -> f e = []) -> and_then l f = [].
  Proof.
    induction l as [ | [e ev] l IH]; intros f H; [reflexivity | ]. unfold and_then. cbn [flat_map fst snd].
    rewrite (H e ev (or_introl eq_refl)). cbn [map app]. apply IH. intros e' ev' I. eapply H. right. exact I.
  Qed.

  (** Pieces *)
  Lemma piece_hd : forall a q b n i e ev j ev', hd_error (times q (ways_atom a n) i) = Some (e, ev) ->
    hd_error (ways_branch b (n + groups_atom a) e) = Some (j, ev') ->
    hd_error (ways_branch (Piece a q b) n i) = Some (j, ev ++ ev').
  Proof. intros. cbn [Regexp_Spec.ways_branch]. eapply and_then_hd; eassumption. Qed.
  Lemma piece_nil : forall a q b n i,
    (forall e ev, In (e, ev) (times q (ways_atom a n) i) -> ways_branch b (n + groups_atom a) e = []) ->
    ways_branch (Piece a q b) n i = [].
  Proof. intros. cbn [Regexp_Spec.ways_branch]. apply and_then_nil. assumption. Qed.

  (** Repeated characters *)
  Lemma many_hd : forall l xs s i n, at_ i (xs ++ s) -> Forall (fun x => cls l x = true) xs -> starts (cls l) s = false ->
    (length xs < n)%nat ->
    hd_error (many Greedy (one t (fun x => xorb false (existsb (in_item x) l))) n i) = Some (i + Z.of_nat (length xs), []).
  Proof.
    intros l. induction xs as [ | x xs IH]; intros s i n A F S N; destruct n as [ | n]; cbn [length] in N; try lia; cbn [many].
    - rewrite (one_at _ i s A). cbn [length]. rewrite Z.add_0_r. destruct s as [ | c s]; [reflexivity | ].
      cbn [starts] in S. unfold cls in S. rewrite S. reflexivity.
    - rewrite (one_at _ i (x :: xs ++ s) A). inversion F as [ | x' xs' Fx Fxs]; subst. unfold cls in Fx. rewrite Fx. cbn [xorb].
      assert (H : hd_error (and_then [(i + 1, [])] (many Greedy (one t (fun x => xorb false (existsb (in_item x) l))) n)) =
                  Some (i + Z.of_nat (length (x :: xs)), [])).
      { rewrite (and_then_hd _ _ (i + 1) [] (i + 1 + Z.of_nat (length xs)) []); [ | reflexivity | ].
        - cbn [length app]. f_equal. f_equal. lia.
        - apply (IH s); auto; [exact (at_cons _ _ _ A) | lia]. }
      unfold xorb in H. destruct (and_then _ _) as [ | w l'] ; [discriminate | exact H].
  Qed.
  Lemma many_in : forall l n xs s i e ev, at_ i (xs ++ s) -> Forall (fun x => cls l x = true) xs -> starts (cls l) s = false ->
    In (e, ev) (many Greedy (one t (fun x => xorb false (existsb (in_item x) l))) n i) ->
    exists k, (k <= length xs)%nat /\ e = i + Z.of_nat k.
  Proof.
    intros l. induction n as [ | n IH]; intros xs s i e ev A F S I; [destruct I | ]. cbn [many] in I.
    apply in_app_or in I. destruct I as [I | [I | []]].
    - unfold and_then in I. rewrite (one_at _ i _ A) in I. destruct xs as [ | x xs].
      + cbn [app] in I. destruct s as [ | c s]; [destruct I | ]. cbn [starts] in S. unfold cls in S. rewrite S in I. destruct I.
      + cbn [app] in I. inversion F as [ | x' xs' Fx Fxs]; subst. unfold cls in Fx. rewrite Fx in I. cbn [xorb flat_map fst snd] in I.
        rewrite app_nil_r in I. apply in_map_iff in I. destruct I as ([e' ev'] & E & I). cbn [fst snd app] in E. injection E as <- <-.
        destruct (IH xs s (i + 1) e' ev' (at_cons _ _ _ A) Fxs S I) as (k & K1 & K2). exists (Datatypes.S k). cbn [length]. lia.
    - injection I as <- <-. exists 0%nat. lia.
  Qed.
  Lemma run_bound : forall i xs s, at_ i (xs ++ s) -> (length xs < Datatypes.S (length t))%nat.
  Proof. intros i xs s (pre & -> & _). rewrite !app_length. lia. Qed.

  Lemma star_hd : forall l n xs s i, at_ i (xs ++ s) -> Forall (fun x => cls l x = true) xs -> starts (cls l) s = false ->
    hd_error (times star (ways_atom (Cls false l) n) i) = Some (i + Z.of_nat (length xs), []).
  Proof. intros l n xs s i A F S. cbn [Regexp_Spec.times star Regexp_Spec.ways_atom]. eapply many_hd; eauto. eapply run_bound; eauto. Qed.
  Lemma star_in : forall l n xs s i e ev, at_ i (xs ++ s) -> Forall (fun x => cls l x = true) xs -> starts (cls l) s = false ->
    In (e, ev) (times star (ways_atom (Cls false l) n) i) -> exists k, (k <= length xs)%nat /\ e = i + Z.of_nat k.
  Proof. intros l n xs s i e ev A F S I. exact (many_in l _ xs s i e ev A F S I). Qed.
  Lemma plus_hd : forall l n xs s i, at_ i (xs ++ s) -> xs <> [] -> Forall (fun x => cls l x = true) xs -> starts (cls l) s = false ->
    hd_error (times plus (ways_atom (Cls false l) n) i) = Some (i + Z.of_nat (length xs), []).
  Proof.
    intros l n [ | x xs] s i A N F S; [congruence | ]. cbn [Regexp_Spec.times plus Regexp_Spec.ways_atom].
    inversion F as [ | x' xs' Fx Fxs]; subst. change (@nil event) with (@nil event ++ @nil event).
    apply (and_then_hd _ _ (i + 1) []).
    - rewrite (one_at _ i (x :: xs ++ s) A). unfold cls in Fx. rewrite Fx. reflexivity.
    - replace (i + Z.of_nat (length (x :: xs))) with (i + 1 + Z.of_nat (length xs)) by (cbn [length]; lia).
      pose proof (at_cons _ _ _ A) as A'. eapply many_hd; eauto. eapply run_bound; eauto.
  Qed.
  Lemma plus_in : forall l n xs s i e ev, at_ i (xs ++ s) -> Forall (fun x => cls l x = true) xs -> starts (cls l) s = false ->
    In (e, ev) (times plus (ways_atom (Cls false l) n) i) -> exists k, (1 <= k <= length xs)%nat /\ e = i + Z.of_nat k.
  Proof.
    intros l n xs s i e ev A F S I. cbn [Regexp_Spec.times plus Regexp_Spec.ways_atom] in I. unfold and_then in I.
    rewrite (one_at _ i _ A) in I. destruct xs as [ | x xs].
    - cbn [app] in I. destruct s as [ | c s]; [destruct I | ]. cbn [starts] in S. unfold cls in S. rewrite S in I. destruct I.
    - cbn [app] in I. inversion F as [ | x' xs' Fx Fxs]; subst. unfold cls in Fx. rewrite Fx in I. cbn [xorb flat_map fst snd] in I.
      rewrite app_nil_r in I. apply in_map_iff in I. destruct I as ([e' ev'] & E & I). cbn [fst snd app] in E. injection E as <- <-.
      destruct (many_in l _ xs s (i + 1) e' ev' (at_cons _ _ _ A) Fxs S I) as (k & K1 & K2). exists (Datatypes.S k). cbn [length]. lia.
  Qed.
  Lemma cls_one : forall l n c s i, at_ i (c :: s) -> times One (ways_atom (Cls false l) n) i = if cls l c then [(i + 1, [])] else [].
  Proof. intros l n c s i A. cbn [Regexp_Spec.times Regexp_Spec.ways_atom]. rewrite (one_at _ i _ A). unfold cls. destruct (existsb _ _); reflexivity. Qed.
  Lemma cls_end : forall l n i, at_ i [] -> times One (ways_atom (Cls false l) n) i = [].
  Proof. intros l n i A. cbn [Regexp_Spec.times Regexp_Spec.ways_atom]. rewrite (one_at _ i _ A). reflexivity. Qed.

  (** Groups *)
  Lemma grp_hd : forall r n i e ev, hd_error (ways r (S n) i) = Some (e, ev) ->
    hd_error (times One (ways_atom (Grp r) n) i) = Some (e, Opened n i :: ev ++ [Closed n e]).
  Proof.
    intros r n i e ev H.
    change (times One (ways_atom (Grp r) n) i) with
      (map (fun w : way => (fst w, Opened n i :: snd w ++ [Closed n (fst w)])) (ways r (S n) i)). destruct (ways r (S n) i) as [ | w l]; [discriminate | ].
    injection H as ->. reflexivity.
  Qed.
  Lemma grp_in : forall r n i e ev, In (e, ev) (times One (ways_atom (Grp r) n) i) -> exists ev', In (e, ev') (ways r (S n) i).
  Proof.
    intros r n i e ev I.
    change (times One (ways_atom (Grp r) n) i) with
      (map (fun w : way => (fst w, Opened n i :: snd w ++ [Closed n (fst w)])) (ways r (S n) i)) in I. apply in_map_iff in I.
    destruct I as ([e' ev'] & E & I). cbn [fst snd] in E. injection E as <- <-. eauto.
  Qed.
  Lemma opt_hd : forall a n i w, hd_error (times One (ways_atom a n) i) = Some w -> hd_error (times opt (ways_atom a n) i) = Some w.
  Proof. intros a n i w H. cbn [Regexp_Spec.times opt] in *. destruct (ways_atom a n i); [discriminate | exact H]. Qed.
  Lemma opt_no : forall a n i, times One (ways_atom a n) i = [] -> hd_error (times opt (ways_atom a n) i) = Some (i, []).
  Proof. intros a n i H. cbn [Regexp_Spec.times opt] in *. rewrite H. reflexivity. Qed.

  (** Literals *)
  Lemma lit_times : forall cs n i, times One (ways_atom (Lit cs) n) i = if literal cs i then [(i + Z.of_nat (length cs), [])] else [].
  Proof. reflexivity. Qed.
  Lemma literal_at : forall cs i s, at_ i s ->
    literal cs i = (fix go cs s := match cs, s with
                                   | [], _ => true
                                   | c :: cs, x :: s => eqc nocase c x && go cs s
                                   | _, [] => false end) cs s.
  Proof.
    induction cs as [ | c cs IH]; intros i s A; [destruct s; reflexivity | ]. cbn [Regexp_Spec.literal]. rewrite (at_char i s A).
    destruct s as [ | x s]; [reflexivity | ]. cbn [hd_error]. rewrite (IH (i + 1) s (at_cons _ _ _ A)). reflexivity.
  Qed.
End Scan.
