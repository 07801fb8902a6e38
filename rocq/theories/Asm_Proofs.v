(** Proofs about the assembler. *)
From Coq Require Import List ZArith Bool Lia ZifyBool.
From Verif Require Import Asm_Model Asm_Spec.
Import ListNotations.
Open Scope Z_scope.

(** ** Templates: bytes, and the two bytes of a label's address *)

Inductive cell := B (b : Z) | Hi (l : nat) | Lo (l : nat).

Definition value (ad : nat -> option Z) (c : cell) : option Z :=
  match c with
  | B b => Some b
  | Hi l => match ad l with Some a => Some (Z.shiftr a 8) | None => None end
  | Lo l => match ad l with Some a => Some (Z.land a 255) | None => None end
  end.

Definition at_ (t : list cell) (s0 a : Z) : option cell :=
  if a <? s0 then None else nth_error t (Z.to_nat (a - s0)).

Record Inv (s0 : Z) (t : list cell) (s : ast) : Prop := {
  i_pc : pc s = s0 + Z.of_nat (length t);
  i_sound : forall b a, In (b, a) (code s) ->
            exists c, at_ t s0 a = Some c /\ value (address s) c = Some b;
  i_compl : forall a c b, at_ t s0 a = Some c -> value (address s) c = Some b ->
            In (b, a) (code s);
  i_hi : forall l a, address s l = None -> at_ t s0 a = Some (Hi l) -> In a (forwards s l);
  i_fw : forall l a, In a (forwards s l) ->
         at_ t s0 a = Some (Hi l) /\ at_ t s0 (a + 1) = Some (Lo l);
  i_lo : forall l a, at_ t s0 a = Some (Lo l) -> at_ t s0 (a - 1) = Some (Hi l)
}.

Lemma at_lt t s0 a c : at_ t s0 a = Some c -> s0 <= a < s0 + Z.of_nat (length t).
Proof.
  unfold at_. destruct (Z.ltb_spec a s0); [discriminate | ]. intros E.
  assert (Z.to_nat (a - s0) < length t)%nat by (apply nth_error_Some; congruence). lia.
Qed.

Lemma at_app t u s0 a :
  at_ (t ++ u) s0 a =
  if a <? s0 + Z.of_nat (length t) then at_ t s0 a else at_ u (s0 + Z.of_nat (length t)) a.
Proof.
  unfold at_. destruct (Z.ltb_spec a s0), (Z.ltb_spec a (s0 + Z.of_nat (length t))); try lia; try reflexivity.
  - apply nth_error_app1. lia.
  - rewrite nth_error_app2 by lia. f_equal. lia.
Qed.

Lemma at_app1 t u s0 a c : at_ t s0 a = Some c -> at_ (t ++ u) s0 a = Some c.
Proof.
  intros E. rewrite at_app. pose proof (at_lt _ _ _ _ E).
  destruct (Z.ltb_spec a (s0 + Z.of_nat (length t))); [ exact E | lia].
Qed.

Lemma at_cons c t s0 a :
  at_ (c :: t) s0 a = if a =? s0 then Some c else at_ t (s0 + 1) a.
Proof.
  unfold at_. destruct (Z.eqb_spec a s0).
  - subst. destruct (Z.ltb_spec s0 s0); [lia | ]. replace (Z.to_nat (s0 - s0)) with 0%nat by lia. reflexivity.
  - destruct (Z.ltb_spec a s0), (Z.ltb_spec a (s0 + 1)); try lia; try reflexivity.
    replace (Z.to_nat (a - s0)) with (S (Z.to_nat (a - (s0 + 1)))) by lia. reflexivity.
Qed.

Lemma at_nil s0 a : at_ [] s0 a = None.
Proof. unfold at_. destruct (a <? s0); [reflexivity | ]. destruct (Z.to_nat (a - s0)); reflexivity. Qed.

Lemma Inv_init s0 : Inv s0 [] (init s0).
Proof.
  constructor; cbn; try tauto; try lia; intros; rewrite at_nil in *; discriminate.
Qed.

(** Cases of an address in an extended template *)
Ltac at_cases H :=
  rewrite at_app in H;
  match type of H with
  | (if ?a <? ?b then _ else _) = _ => destruct (Z.ltb_spec a b)
  end.

Lemma Inv_byte s0 t s b : Inv s0 t s -> Inv s0 (t ++ [B b]) (emit_byte b s).
Proof.
  intros [P S C H F L]. constructor; cbn [emit_byte set_pc emit_byte_at code pc address forwards].
  - rewrite app_length. cbn [length]. lia.
  - intros b' a [E | E].
    + injection E as <- <-. exists (B b). split; [ | reflexivity].
      rewrite at_app. destruct (Z.ltb_spec (pc s) (s0 + Z.of_nat (length t))); [lia | ].
      rewrite at_cons. destruct (Z.eqb_spec (pc s) (s0 + Z.of_nat (length t))); [reflexivity | lia].
    + destruct (S _ _ E) as (c & E1 & E2). exists c. split; [apply at_app1 | ]; assumption.
  - intros a c b' E V. at_cases E.
    + right. eauto.
    + rewrite at_cons, at_nil in E. destruct (Z.eqb_spec a (s0 + Z.of_nat (length t))); [ | discriminate].
      injection E as <-. cbn in V. injection V as <-. left. f_equal. lia.
  - intros l a N E. at_cases E; [eauto | ].
    rewrite at_cons, at_nil in E. destruct (a =? _); discriminate.
  - intros l a E. destruct (F _ _ E). split; apply at_app1; assumption.
  - intros l a E. at_cases E; [apply at_app1; auto | ].
    rewrite at_cons, at_nil in E. destruct (a =? _); discriminate.
Qed.

Lemma Inv_label_addr s0 t s l :
  Inv s0 t s -> Inv s0 (t ++ [Hi l; Lo l]) (emit_label_addr l s).
Proof.
  intros [P S C H F L].
  assert (A1 : at_ (t ++ [Hi l; Lo l]) s0 (pc s) = Some (Hi l)).
  { rewrite at_app. destruct (Z.ltb_spec (pc s) (s0 + Z.of_nat (length t))); [lia | ].
    rewrite at_cons. destruct (Z.eqb_spec (pc s) (s0 + Z.of_nat (length t))); [reflexivity | lia]. }
  assert (A2 : at_ (t ++ [Hi l; Lo l]) s0 (pc s + 1) = Some (Lo l)).
  { rewrite at_app. destruct (Z.ltb_spec (pc s + 1) (s0 + Z.of_nat (length t))); [lia | ].
    rewrite !at_cons. destruct (Z.eqb_spec (pc s + 1) (s0 + Z.of_nat (length t))); [lia | ].
    destruct (Z.eqb_spec (pc s + 1) (s0 + Z.of_nat (length t) + 1)); [reflexivity | lia]. }
  assert (A3 : forall a c, at_ (t ++ [Hi l; Lo l]) s0 a = Some c ->
               at_ t s0 a = Some c \/ (a = pc s /\ c = Hi l) \/ (a = pc s + 1 /\ c = Lo l)).
  { intros a c E. at_cases E; [auto | ]. rewrite !at_cons, at_nil in E.
    destruct (Z.eqb_spec a (s0 + Z.of_nat (length t))).
    - right; left. split; [lia | congruence].
    - destruct (Z.eqb_spec a (s0 + Z.of_nat (length t) + 1)); [ | discriminate].
      right; right. split; [lia | congruence]. }
  unfold emit_label_addr. destruct (address s l) as [ad | ] eqn:EA.
  - constructor; cbn [emit_address set_pc emit_address_at emit_byte_at code pc address forwards].
    + rewrite app_length. cbn [length]. lia.
    + intros b a [E | [E | E]].
      * injection E as <- <-. exists (Lo l). cbn [value]. rewrite EA. auto.
      * injection E as <- <-. exists (Hi l). cbn [value]. rewrite EA. auto.
      * destruct (S _ _ E) as (c & E1 & E2). exists c. split; [apply at_app1 | ]; assumption.
    + intros a c b E V. destruct (A3 _ _ E) as [E' | [[-> ->] | [-> ->]]].
      * right; right. eauto.
      * cbn [value] in V. rewrite EA in V. injection V as <-. right; left. reflexivity.
      * cbn [value] in V. rewrite EA in V. injection V as <-. left. reflexivity.
    + intros l' a N E. destruct (A3 _ _ E) as [E' | [[-> [= <-]] | [-> [=]]]]; [auto | congruence].
    + intros l' a E. destruct (F _ _ E). split; apply at_app1; assumption.
    + intros l' a E. destruct (A3 _ _ E) as [E' | [[-> [=]] | [-> [= ->]]]].
      * apply at_app1; auto.
      * rewrite Z.add_simpl_r. exact A1.
  - constructor; cbn [set_pc set_forwards code pc address forwards].
    + rewrite app_length. cbn [length]. lia.
    + intros b a E. destruct (S _ _ E) as (c & E1 & E2). exists c. split; [apply at_app1 | ]; assumption.
    + intros a c b E V. destruct (A3 _ _ E) as [E' | [[-> ->] | [-> ->]]]; [eauto | | ];
        cbn [value] in V; rewrite EA in V; discriminate.
    + intros l' a N E. destruct (A3 _ _ E) as [E' | [[-> [= <-]] | [-> [=]]]].
      * destruct (Nat.eqb_spec l' l) as [-> | ]; [right | ]; auto.
      * rewrite Nat.eqb_refl. left. reflexivity.
    + intros l' a. destruct (Nat.eqb_spec l' l) as [-> | ].
      * intros [<- | E]; [auto | ]. destruct (F _ _ E). split; apply at_app1; assumption.
      * intros E. destruct (F _ _ E). split; apply at_app1; assumption.
    + intros l' a E. destruct (A3 _ _ E) as [E' | [[-> [=]] | [-> [= ->]]]].
      * apply at_app1; auto.
      * rewrite Z.add_simpl_r. exact A1.
Qed.

Lemma backpatch_fields p refs s :
  pc (backpatch p refs s) = pc s /\ address (backpatch p refs s) = address s /\
  forwards (backpatch p refs s) = forwards s /\ consts (backpatch p refs s) = consts s /\
  next_id (backpatch p refs s) = next_id s.
Proof.
  revert s. induction refs as [ | r refs IH]; intros s; cbn [backpatch]; [auto | ].
  destruct (IH (emit_byte_at (Z.land p 255) (r + 1) (emit_byte_at (Z.shiftr p 8) r s))) as (-> & -> & -> & -> & ->).
  cbn. auto.
Qed.

Lemma backpatch_code p refs s b a :
  In (b, a) (code (backpatch p refs s)) <->
  In (b, a) (code s) \/
  (exists r, In r refs /\ ((b = Z.shiftr p 8 /\ a = r) \/ (b = Z.land p 255 /\ a = r + 1))).
Proof.
  revert s. induction refs as [ | r refs IH]; intros s; cbn [backpatch].
  - split; [auto | ]. intros [E | (r & [] & _)]; exact E.
  - rewrite IH. cbn [emit_byte_at code In]. split.
    + intros [[E | [E | E]] | (r' & E1 & E2)].
      * injection E as <- <-. right. exists r. auto.
      * injection E as <- <-. right. exists r. auto.
      * auto.
      * right. exists r'. auto.
    + intros [E | (r' & [<- | E1] & E2)].
      * auto.
      * left. destruct E2 as [[-> ->] | [-> ->]]; auto.
      * right. exists r'. auto.
Qed.

Lemma Inv_label s0 t s l s' : Inv s0 t s -> emit_label l s = Some s' -> Inv s0 t s'.
Proof.
  intros [P S C H F L]. unfold emit_label. destruct (address s l) eqn:EA; [discriminate | ].
  intros E. injection E as <-.
  set (s1 := set_address l (pc s) s).
  destruct (backpatch_fields (pc s) (forwards s l) s1) as (B1 & B2 & B3 & _).
  assert (V : forall c b, value (address s) c = Some b -> value (address s1) c = Some b).
  { intros [b0 | l' | l'] b; cbn; [auto | | ]; destruct (Nat.eqb_spec l' l) as [-> | ]; rewrite ?EA; auto; discriminate. }
  constructor; cbn [set_forwards pc address forwards]; rewrite ?B1, ?B2, ?B3.
  - exact P.
  - cbn [set_forwards code]. intros b a E. apply backpatch_code in E. destruct E as [E | (r & E1 & E2)].
    + destruct (S _ _ E) as (c & E1 & E2). exists c. auto.
    + cbn [s1 set_address forwards] in E1. destruct (F _ _ E1) as [F1 F2].
      destruct E2 as [[-> ->] | [-> ->]].
      * exists (Hi l). split; [exact F1 | ]. cbn. rewrite Nat.eqb_refl. reflexivity.
      * exists (Lo l). split; [exact F2 | ]. cbn. rewrite Nat.eqb_refl. reflexivity.
  - cbn [set_forwards code]. intros a c b E V'. apply backpatch_code.
    destruct c as [b0 | l' | l'].
    + left. eauto.
    + cbn in V'. destruct (Nat.eqb_spec l' l) as [-> | ].
      * injection V' as <-. right. exists a. split; [apply (H l a EA E) | auto].
      * left. eapply C; [exact E | exact V'].
    + cbn in V'. destruct (Nat.eqb_spec l' l) as [-> | ].
      * injection V' as <-. right. exists (a - 1).
        split; [apply (H l (a - 1) EA (L _ _ E)) | right; split; [reflexivity | lia]].
      * left. eapply C; [exact E | exact V'].
  - intros l' a N E. cbn in N. destruct (Nat.eqb_spec l' l); [discriminate | ]. apply H; assumption.
  - intros l' a. destruct (Nat.eqb_spec l' l); [intros [] | apply F].
  - exact L.
Qed.

(** ** The final bytes *)

Lemma set_nth_length {A} n (v : A) l : length (set_nth n v l) = length l.
Proof. revert n. induction l as [ | x l IH]; intros [ | n]; cbn; auto. Qed.
Lemma stores_length {A} ws (l : list A) : length (stores ws l) = length l.
Proof.
  revert l. induction ws as [ | [v a] ws IH]; intros l; cbn; [reflexivity | ].
  rewrite IH. apply set_nth_length.
Qed.
Lemma set_nth_same {A} n (v : A) l : (n < length l)%nat -> nth_error (set_nth n v l) n = Some v.
Proof. revert n. induction l as [ | x l IH]; intros [ | n]; cbn; intros; try lia; auto. apply IH. lia. Qed.
Lemma set_nth_other {A} n m (v : A) l : n <> m -> nth_error (set_nth n v l) m = nth_error l m.
Proof. revert n m. induction l as [ | x l IH]; intros [ | n] [ | m]; cbn; intros; try congruence; auto. Qed.

Lemma stores_keep {A} ws (l : list A) n v :
  (forall w a, In (w, a) ws -> Z.to_nat a = n -> w = v) ->
  nth_error l n = Some v -> nth_error (stores ws l) n = Some v.
Proof.
  revert l. induction ws as [ | [w a] ws IH]; intros l H E; cbn [stores]; [exact E | ].
  apply IH; [intros; eapply H; eauto; right; eassumption | ].
  destruct (Nat.eq_dec (Z.to_nat a) n) as [<- | N].
  - rewrite set_nth_same; [f_equal; eapply H; eauto; left; reflexivity | ].
    apply nth_error_Some. congruence.
  - rewrite set_nth_other; assumption.
Qed.

Lemma stores_nth {A} ws (l : list A) n v a :
  (n < length l)%nat -> In (v, a) ws -> Z.to_nat a = n ->
  (forall w a, In (w, a) ws -> Z.to_nat a = n -> w = v) ->
  nth_error (stores ws l) n = Some v.
Proof.
  revert l. induction ws as [ | [w b] ws IH]; intros l L E N H; cbn [stores]; [destruct E | destruct E as [E | E]].
  - injection E as <- <-. apply stores_keep; [intros; eapply H; eauto; right; eassumption | ].
    rewrite N. apply set_nth_same. exact L.
  - apply IH; auto; [rewrite set_nth_length; exact L | ].
    intros; eapply H; eauto. right. eassumption.
Qed.

Definition final (env : nat -> Z) (c : cell) : Z :=
  match c with
  | B b => b mod 256
  | Hi l => Z.shiftr (env l) 8 mod 256
  | Lo l => Z.land (env l) 255 mod 256
  end.

Lemma Inv_bytes s0 t s env :
  0 <= s0 -> Inv s0 t s ->
  (forall c l, In c t -> c = Hi l \/ c = Lo l -> address s l = Some (env l)) ->
  exists pre, length pre = Z.to_nat s0 /\
  stores (map (fun w => (fst w mod 256, snd w)) (code s)) (repeat 32 (Z.to_nat (pc s))) =
  pre ++ map (final env) t.
Proof.
  intros S0 [P S C H F L] D.
  set (r := stores _ _).
  assert (Lr : length r = Z.to_nat (pc s)) by (unfold r; rewrite stores_length, repeat_length; reflexivity).
  exists (firstn (Z.to_nat s0) r). split; [rewrite firstn_length; lia | ].
  rewrite <- (firstn_skipn (Z.to_nat s0) r) at 1. f_equal.
  assert (Ls : length (skipn (Z.to_nat s0) r) = length t) by (rewrite skipn_length; lia).
  assert (X : forall i c, nth_error t i = Some c -> nth_error (skipn (Z.to_nat s0) r) i = Some (final env c)).
  { intros i c E.
    assert (I : (i < length t)%nat) by (apply nth_error_Some; congruence).
    assert (EA : at_ t s0 (s0 + Z.of_nat i) = Some c).
    { unfold at_. destruct (Z.ltb_spec (s0 + Z.of_nat i) s0); [lia | ].
      replace (Z.to_nat (s0 + Z.of_nat i - s0)) with i by lia. exact E. }
    assert (V : exists v, value (address s) c = Some v /\ final env c = v mod 256).
    { destruct c as [b | l | l]; cbn [value final].
      - eauto.
      - rewrite (D _ l (nth_error_In _ _ E)) by auto. eauto.
      - rewrite (D _ l (nth_error_In _ _ E)) by auto. eauto. }
    destruct V as (v & V1 & ->).
    assert (NS : forall (x : list Z) k j, nth_error (skipn k x) j = nth_error x (k + j)).
    { clear. intros x k. revert x. induction k as [ | k IH]; intros x j; [reflexivity | ].
      destruct x; cbn; [destruct j; reflexivity | apply IH]. }
    rewrite NS. unfold r. apply stores_nth with (a := s0 + Z.of_nat i).
    - rewrite repeat_length. lia.
    - apply in_map_iff. exists (v, s0 + Z.of_nat i). split; [reflexivity | ]. eapply C; eassumption.
    - lia.
    - intros w a W WA. apply in_map_iff in W. destruct W as ((b & a') & W1 & W2).
      cbn in W1. injection W1 as <- <-. destruct (S _ _ W2) as (c' & E1 & E2).
      pose proof (at_lt _ _ _ _ E1). replace a' with (s0 + Z.of_nat i) in E1 by lia.
      congruence. }

  revert Ls X. clear. generalize (skipn (Z.to_nat s0) r). clear r. intros l. revert t.
  induction l as [ | x l IH]; intros [ | c t]; cbn; intros Ls X; try discriminate; [reflexivity | ].
  f_equal.
  - specialize (X 0%nat c eq_refl). cbn in X. congruence.
  - apply IH; [congruence | ]. intros i. exact (X (S i)).
Qed.

(** ** Emission of one instruction *)

Definition emits (l : list Z) (s : ast) : ast := fold_left (fun s b => emit_byte b s) l s.

Lemma emits_fields l s :
  address (emits l s) = address s /\ consts (emits l s) = consts s /\
  next_id (emits l s) = next_id s /\ pc (emits l s) = pc s + Z.of_nat (length l).
Proof.
  revert s. induction l as [ | b l IH]; intros s; cbn [length].
  - repeat split; try reflexivity. cbn [emits fold_left]. lia.
  - change (emits (b :: l) s) with (emits l (emit_byte b s)).
    destruct (IH (emit_byte b s)) as (-> & -> & -> & ->). repeat split; try reflexivity. cbn [emit_byte set_pc pc]. lia.
Qed.

Lemma Inv_emits s0 l t s : Inv s0 t s -> Inv s0 (t ++ map B l) (emits l s).
Proof.
  revert t s. induction l as [ | b l IH]; intros t s H; cbn [emits fold_left map].
  - rewrite app_nil_r. exact H.
  - replace (t ++ B b :: map B l) with ((t ++ [B b]) ++ map B l) by (rewrite <- app_assoc; reflexivity).
    apply IH. apply Inv_byte. exact H.
Qed.

Definition arg_bytes (op n : Z) : list Z :=
  if n <=? 5 then [op + n]
  else if n <=? 255 then [op + 6; n]
  else [op + 7; Z.shiftr n 8; Z.land n 255].

Lemma emit_insn_arg op n s :
  op < 0x3f -> emit_insn op (Some n) s = if n <=? 65535 then Some (emits (arg_bytes op n) s) else None.
Proof.
  intros H. unfold emit_insn, arg_bytes. destruct (Z.leb_spec 0x3f op); [lia | ].
  destruct (Z.leb_spec n 5), (Z.leb_spec n 255), (Z.leb_spec n 65535); try lia; reflexivity.
Qed.

(** Immediate operands of push *)
Definition push_bytes (v : obj) : option (list Z) :=
  match v with
  | ONil => Some [0x49]
  | OT => Some [0x4a]
  | OFix z =>
      if Z.abs z <=? 65535 then
        Some (if z =? 0 then [0x9a]
              else if z =? 1 then [0x9b]
              else if z =? 2 then [0x9c]
              else if z =? -1 then [0x9d]
              else if z =? -2 then [0x9e]
              else if (z <=? 127) && (-128 <=? z) then [0x9f; Z.land z 255]
              else if z <? 0 then [0xa0; Z.shiftr (- z) 8; Z.land (- z) 255]
              else [0xa1; Z.shiftr z 8; Z.land z 255])
      else None
  | _ => None
  end.

Lemma emit_push_bytes v l s : push_bytes v = Some l -> emit_push v s = Some (emits l s).
Proof.
  destruct v; cbn [push_bytes emit_push]; try discriminate; intros E.
  - injection E as <-. reflexivity.
  - injection E as <-. reflexivity.
  - destruct (Z.leb_spec (Z.abs z) 65535); [ | discriminate]. injection E as <-.
    destruct (Z.leb_spec z 65535); [ | lia]. destruct (Z.leb_spec (-65535) z); [ | lia]. cbn [andb].
    destruct (z =? 0); [reflexivity | ]. destruct (z =? 1); [reflexivity | ].
    destruct (z =? 2); [reflexivity | ]. destruct (z =? -1); [reflexivity | ].
    destruct (z =? -2); [reflexivity | ].
    destruct ((z <=? 127) && (-128 <=? z)).
    + unfold emit_insn. cbn [Z.leb two_byte].
      assert (X : Z.land z 255 < 256).
      { change 255 with (Z.ones 8). rewrite Z.land_ones by lia. pose proof (Z.mod_pos_bound z (2 ^ 8)). lia. }
      change (0x3f <=? 0x9f) with true. change (two_byte 0x9f) with true. cbv iota zeta.
      destruct (Z.ltb_spec (Z.land z 255) 256); [reflexivity | lia].
    + destruct (Z.ltb_spec z 0).
      * cbn [andb]. unfold emit_insn. change (0x3f <=? 0xa0) with true.
        change (two_byte 0xa0) with false. change (three_byte 0xa0) with true. cbv iota zeta.
        destruct (Z.ltb_spec (- z) 65536); [reflexivity | lia].
      * cbn [andb]. unfold emit_insn. change (0x3f <=? 0xa1) with true.
        change (two_byte 0xa1) with false. change (three_byte 0xa1) with true. cbv iota zeta.
        destruct (Z.ltb_spec z 65536); [reflexivity | lia].
Qed.

Lemma emit_push_const v s :
  push_bytes v = None ->
  emit_push v s = (let '(i, s) := get_const_id v s in emit_insn 0x10 (Some i) s) /\
  constant (Push v) = [v].
Proof.
  destruct v; cbn [push_bytes emit_push constant]; try discriminate; intros E; auto.
  destruct (Z.leb_spec (Z.abs z) 65535); [discriminate | ].
  destruct (Z.leb_spec z 65535), (Z.leb_spec (-65535) z); try lia; auto.
Qed.

Lemma push_bytes_constant v l : push_bytes v = Some l -> constant (Push v) = [].
Proof.
  destruct v; cbn [push_bytes constant]; try discriminate; auto.
  destruct (Z.abs z <=? 65535); [reflexivity | discriminate].
Qed.

(** ** Constants *)

Definition CI (vs : list obj) (s : ast) : Prop :=
  next_id s = Z.of_nat (length vs) /\
  forall v i, In (v, i) (consts s) <-> 0 <= i /\ nth_error vs (Z.to_nat i) = Some v.

Lemma CI_same vs s s' : consts s' = consts s -> next_id s' = next_id s -> CI vs s -> CI vs s'.
Proof. unfold CI. intros -> ->. auto. Qed.

Lemma eql_list_eq s : forall t, eql_list s t = true -> s = t.
Proof.
  induction s as [ | a s IH]; intros [ | b t]; cbn [eql_list]; try discriminate; [reflexivity | ].
  rewrite andb_true_iff, Z.eqb_eq. intros (-> & E). f_equal. auto.
Qed.

Lemma equalo_alike v w : equalo v w = true -> v = w \/ alike v w.
Proof.
  destruct v, w; cbn [equalo alike]; try discriminate; try (left; reflexivity).
  - rewrite Z.eqb_eq. unfold wrap32. intros E. right.
    assert ((z - z0 + 2 ^ 31) mod 2 ^ 32 = 2 ^ 31) as E' by lia.
    rewrite <- (Z.sub_add (2 ^ 31) (z - z0)), Z.add_comm in E'.
    assert ((z - z0) mod 2 ^ 32 = ((z - z0 + 2 ^ 31) mod 2 ^ 32 - 2 ^ 31) mod 2 ^ 32) as ->
      by (rewrite Zminus_mod_idemp_l; f_equal; lia).
    rewrite E by lia. reflexivity.
  - intros E. right. now apply eql_list_eq.
  - rewrite Nat.eqb_eq. intros ->. left; reflexivity.
Qed.

Lemma assoc_some v l i : assoc v l = Some i -> exists w, equalo v w = true /\ In (w, i) l.
Proof.
  induction l as [ | [w j] l IH]; cbn [assoc]; [discriminate | ].
  destruct (equalo v w) eqn:E.
  - intros X. injection X as ->. exists w. split; [exact E | left; reflexivity].
  - intros X. destruct (IH X) as (w' & E1 & E2). exists w'. split; [exact E1 | right; exact E2].
Qed.

Lemma get_const_id_fields v s :
  code (snd (get_const_id v s)) = code s /\ pc (snd (get_const_id v s)) = pc s /\
  address (snd (get_const_id v s)) = address s /\ forwards (snd (get_const_id v s)) = forwards s.
Proof. unfold get_const_id. destruct (assoc v (consts s)); cbn; auto. Qed.

Lemma get_const_id_CI v s vs (C : list obj) :
  CI vs s -> incl vs C -> In v C ->
  (forall v w, In v C -> In w C -> equalo v w = true -> v = w) ->
  exists vs', CI (vs ++ vs') (snd (get_const_id v s)) /\ incl vs' [v] /\ (length vs' <= 1)%nat /\
  0 <= fst (get_const_id v s) /\
  fst (get_const_id v s) < Z.of_nat (length (vs ++ vs')) /\
  nth_error (vs ++ vs') (Z.to_nat (fst (get_const_id v s))) = Some v.
Proof.
  intros [N CI_] IC IV D. unfold get_const_id. destruct (assoc v (consts s)) as [i | ] eqn:E; cbn [fst snd].
  - exists []. rewrite app_nil_r. destruct (assoc_some _ _ _ E) as (w & E1 & E2).
    apply CI_ in E2. destruct E2 as [E2 E3].
    assert (v = w) by (apply D; auto; apply IC; eapply nth_error_In; eauto). subst w.
    assert (Z.to_nat i < length vs)%nat by (apply nth_error_Some; congruence).
    split; [split; assumption | ]. split; [apply incl_nil_l | ].
    split; [cbn; lia | ]. split; [lia | ]. split; [lia | exact E3].
  - exists [v]. rewrite N, app_length. cbn [length].
    assert (X : nth_error (vs ++ [v]) (Z.to_nat (Z.of_nat (length vs))) = Some v).
    { rewrite nth_error_app2 by lia. rewrite Nat2Z.id, Nat.sub_diag. reflexivity. }
    split; [ | split; [apply incl_refl | ]; split; [lia | ]; split; [lia | ]; split; [lia | exact X]].
    split; cbn [next_id consts]; [ | intros u i; split; [intros H; split | ]].
    + rewrite app_length. cbn [length]. lia.
    + destruct H as [H | H]; [injection H as <- <-; lia | apply CI_ in H; lia].
    + destruct H as [H | H].
      * injection H as <- <-. exact X.
      * apply CI_ in H. destruct H as [H1 H2]. rewrite nth_error_app1; [exact H2 | ].
        apply nth_error_Some. congruence.
    + intros [H1 H2]. destruct (Nat.lt_ge_cases (Z.to_nat i) (length vs)).
      * right. apply CI_. rewrite nth_error_app1 in H2 by assumption. auto.
      * left. assert (Z.to_nat i < length (vs ++ [v]))%nat by (apply nth_error_Some; congruence).
        rewrite app_length in *. cbn [length] in *.
        replace (Z.to_nat i) with (Z.to_nat (Z.of_nat (length vs))) in H2 by lia.
        rewrite X in H2. injection H2 as ->. f_equal. lia.
Qed.

Lemma CI_vec vs s : CI vs s -> stores (consts s) (repeat ONil (Z.to_nat (next_id s))) = vs.
Proof.
  intros [N C]. rewrite N, Nat2Z.id.
  assert (E : forall i v, nth_error vs i = Some v ->
          nth_error (stores (consts s) (repeat ONil (length vs))) i = Some v).
  { intros i v H. apply stores_nth with (a := Z.of_nat i).
    - rewrite repeat_length. apply nth_error_Some. congruence.
    - apply C. rewrite Nat2Z.id. split; [lia | exact H].
    - lia.
    - intros w a W A. apply C in W. destruct W as [W1 W2]. rewrite A in W2. congruence. }
  pose proof (stores_length (consts s) (repeat ONil (length vs))) as L. rewrite repeat_length in L.
  revert E L. generalize (stores (consts s) (repeat ONil (length vs))). clear. intros l. revert vs.
  induction l as [ | x l IH]; intros [ | c t]; cbn; intros E Ls; try discriminate; [reflexivity | ].
  f_equal.
  - specialize (E 0%nat c eq_refl). cbn in E. congruence.
  - apply IH; [ | congruence]. intros i. exact (E (S i)).
Qed.

(** ** Templates of instructions *)

Definition tmpl (vs : list obj) (i : src) (t : list cell) : Prop :=
  match i with
  | Label _ => t = []
  | Push v =>
      match push_bytes v with
      | Some l => t = map B l
      | None => exists k, 0 <= k <= 65535 /\ nth_error vs (Z.to_nat k) = Some v /\ t = map B (arg_bytes 0x10 k)
      end
  | PushLabel l => t = [B 0xa1; Hi l; Lo l]
  | WithConst op v =>
      exists k, 0 <= k <= 65535 /\ nth_error vs (Z.to_nat k) = Some v /\ t = map B (arg_bytes op k)
  | Jump op l => t = [B op; Hi l; Lo l]
  | Insn op None => t = [B op]
  | Insn op (Some n) => 0 <= n <= 65535 /\ t = map B (arg_bytes op n)
  end.

Lemma tmpl_mono vs vs' i t : tmpl vs i t -> tmpl (vs ++ vs') i t.
Proof.
  assert (X : forall k v, nth_error vs k = Some v -> nth_error (vs ++ vs') k = Some v).
  { intros k v E. rewrite nth_error_app1; [exact E | ]. apply nth_error_Some. congruence. }
  destruct i as [l | v | l | op v | op l | op [n | ]]; cbn [tmpl]; auto.
  - destruct (push_bytes v); [auto | ]. intros (k & K & E & ->). exists k. auto.
  - intros (k & K & E & ->). exists k. auto.
Qed.

Lemma CI_pc vs s a : CI vs s -> CI vs (set_pc a s). Proof. auto. Qed.

Lemma Inv_const s0 t s v : Inv s0 t s -> Inv s0 t (snd (get_const_id v s)).
Proof.
  intros [P S C H F L]. destruct (get_const_id_fields v s) as (E1 & E2 & E3 & E4).
  constructor; rewrite ?E1, ?E2, ?E3, ?E4; auto.
Qed.

Lemma label_addr_fields l s :
  address (emit_label_addr l s) = address s /\ consts (emit_label_addr l s) = consts s /\
  next_id (emit_label_addr l s) = next_id s.
Proof. unfold emit_label_addr. destruct (address s l); cbn; auto. Qed.

Lemma emit_label_fields l s s' :
  emit_label l s = Some s' ->
  address s l = None /\ (forall k, address s' k = if Nat.eqb k l then Some (pc s) else address s k) /\
  consts s' = consts s /\ next_id s' = next_id s.
Proof.
  unfold emit_label. destruct (address s l) eqn:EA; [discriminate | ]. intros E. injection E as <-.
  destruct (backpatch_fields (pc s) (forwards s l) (set_address l (pc s) s))
    as (B1 & B2 & B3 & B4 & B5).
  cbn [set_forwards address consts next_id]. rewrite B2, B4, B5. cbn. auto.
Qed.

Definition addr_after (i : src) (s s' : ast) : Prop :=
  match i with
  | Label l => address s l = None /\ forall k, address s' k = if Nat.eqb k l then Some (pc s) else address s k
  | _ => address s' = address s
  end.

Lemma with_const s0 t s vs C op v s' :
  op < 0x3f -> Inv s0 t s -> CI vs s -> incl vs C -> In v C ->
  (forall v w, In v C -> In w C -> equalo v w = true -> v = w) ->
  (let '(k, s) := get_const_id v s in emit_insn op (Some k) s) = Some s' ->
  exists vs' t', Inv s0 (t ++ t') s' /\ CI (vs ++ vs') s' /\
    (exists k, 0 <= k <= 65535 /\ nth_error (vs ++ vs') (Z.to_nat k) = Some v /\ t' = map B (arg_bytes op k)) /\
    incl vs' [v] /\ (length vs' <= 1)%nat /\ address s' = address s.
Proof.
  intros O I CI_ IC IV D E.
  destruct (get_const_id_CI v s vs C CI_ IC IV D) as (vs' & C1 & C2 & C3 & C4 & C5 & C6).
  pose proof (Inv_const _ _ _ v I) as I'. destruct (get_const_id_fields v s) as (_ & _ & EA & _).
  destruct (get_const_id v s) as [k s1]. cbn [fst snd] in *.
  rewrite emit_insn_arg in E by assumption. destruct (Z.leb_spec k 65535); [ | discriminate]. injection E as <-.
  destruct (emits_fields (arg_bytes op k) s1) as (F1 & F2 & F3 & _).
  exists vs', (map B (arg_bytes op k)). split; [apply Inv_emits; exact I' | ].
  split; [apply (CI_same _ s1); auto | ]. split; [exists k; auto | ]. rewrite F1. auto.
Qed.

Lemma emit_step s0 t s vs C i s' :
  good_insn i -> Inv s0 t s -> CI vs s -> incl vs C -> incl (constant i) C ->
  (forall v w, In v C -> In w C -> equalo v w = true -> v = w) ->
  emit i s = Some s' ->
  exists vs' t', Inv s0 (t ++ t') s' /\ CI (vs ++ vs') s' /\ tmpl (vs ++ vs') i t' /\
    incl vs' (constant i) /\ (length vs' <= length (constant i))%nat /\ addr_after i s s'.
Proof.
  intros G I CI_ IC II D E. destruct i as [l | v | l | op v | op l | op arg]; cbn [emit] in E.
  - destruct (emit_label_fields _ _ _ E) as (E0 & E1 & E2 & E3).
    exists [], []. rewrite !app_nil_r. split; [eapply Inv_label; eauto | ].
    split; [apply (CI_same _ s); auto | ]. split; [reflexivity | ].
    split; [apply incl_nil_l | ]. split; [cbn; lia | ]. split; auto.
  - destruct (push_bytes v) as [l | ] eqn:EP.
    + rewrite (emit_push_bytes _ _ _ EP) in E. injection E as <-.
      destruct (emits_fields l s) as (F1 & F2 & F3 & _).
      exists [], (map B l). rewrite !app_nil_r. split; [apply Inv_emits; exact I | ].
      split; [apply (CI_same _ s); auto | ]. split; [cbn [tmpl]; rewrite EP; reflexivity | ].
      split; [apply incl_nil_l | ]. split; [cbn; lia | exact F1].
    + destruct (emit_push_const v s EP) as [E1 E2]. rewrite E1 in E. rewrite E2 in *.
      destruct (with_const s0 t s vs C 0x10 v s') as (vs' & t' & R1 & R2 & R3 & R4 & R5 & R6);
        auto; [lia | apply II; left; reflexivity | ].
      exists vs', t'. cbn [tmpl]. rewrite EP. auto 10.
  - injection E as <-. unfold emit_push_label.
    destruct (label_addr_fields l (emit_byte 0xa1 s)) as (F1 & F2 & F3).
    exists [], [B 0xa1; Hi l; Lo l]. rewrite app_nil_r.
    split. { change [B 0xa1; Hi l; Lo l] with ([B 0xa1] ++ [Hi l; Lo l]). rewrite app_assoc.
             apply Inv_label_addr, Inv_byte, I. }
    split; [apply (CI_same _ s); auto | ]. split; [reflexivity | ].
    split; [apply incl_nil_l | ]. split; [cbn; lia | exact F1].
  - cbn [good_insn constant] in *.
    destruct (with_const s0 t s vs C op v s') as (vs' & t' & R1 & R2 & R3 & R4 & R5 & R6);
      auto; [lia | apply II; left; reflexivity | ].
    exists vs', t'. auto 10.
  - injection E as <-. unfold emit_jmp.
    destruct (label_addr_fields l (emit_byte op s)) as (F1 & F2 & F3).
    exists [], [B op; Hi l; Lo l]. rewrite app_nil_r.
    split. { change [B op; Hi l; Lo l] with ([B op] ++ [Hi l; Lo l]). rewrite app_assoc.
             apply Inv_label_addr, Inv_byte, I. }
    split; [apply (CI_same _ s); auto | ]. split; [reflexivity | ].
    split; [apply incl_nil_l | ]. split; [cbn; lia | exact F1].
  - destruct arg as [n | ]; cbn [good_insn] in G.
    + rewrite emit_insn_arg in E by lia. destruct (Z.leb_spec n 65535); [ | discriminate]. injection E as <-.
      destruct (emits_fields (arg_bytes op n) s) as (F1 & F2 & F3 & _).
      exists [], (map B (arg_bytes op n)). rewrite !app_nil_r. split; [apply Inv_emits; exact I | ].
      split; [apply (CI_same _ s); auto | ]. split; [cbn [tmpl]; split; [lia | reflexivity] | ].
      split; [apply incl_nil_l | ]. split; [cbn; lia | exact F1].
    + unfold emit_insn in E. destruct (Z.leb_spec 0x3f op); [ | lia]. injection E as <-.
      exists [], [B op]. rewrite !app_nil_r. split; [apply Inv_byte; exact I | ].
      split; [exact CI_ | ]. split; [reflexivity | ]. split; [apply incl_nil_l | ]. split; [cbn; lia | reflexivity].
Qed.

Lemma emit_all_steps s0 C p : forall t s vs s',
  Forall good_insn p -> Inv s0 t s -> CI vs s -> incl vs C -> incl (flat_map constant p) C ->
  (forall v w, In v C -> In w C -> equalo v w = true -> v = w) ->
  emit_all p s = Some s' ->
  exists vs' ts, Inv s0 (t ++ concat ts) s' /\ CI (vs ++ vs') s' /\
    Forall2 (tmpl (vs ++ vs')) p ts /\
    (forall l a, address s l = Some a -> address s' l = Some a) /\
    (forall p1 l p2, p = p1 ++ Label l :: p2 ->
       address s' l = Some (s0 + Z.of_nat (length t) + Z.of_nat (length (concat (firstn (length p1) ts))))).
Proof.
  induction p as [ | i p IH]; intros t s vs s' G I CI_ IC II D E; cbn [emit_all] in E.
  - injection E as <-. exists [], []. cbn [concat]. rewrite !app_nil_r.
    split; [exact I | ]. split; [exact CI_ | ]. split; [constructor | ]. split; [auto | ].
    intros [ | ? ?] ? ? E; discriminate.
  - destruct (emit i s) as [s1 | ] eqn:E1; [ | discriminate].
    inversion G as [ | ? ? G1 G2]; subst. cbn [flat_map] in II.
    destruct (emit_step s0 t s vs C i s1) as (vs1 & t1 & I1 & C1 & T1 & N1 & _ & A1); auto.
    { intros x X. apply II. apply in_or_app. auto. }
    destruct (IH (t ++ t1) s1 (vs ++ vs1) s') as (vs2 & ts & I2 & C2 & T2 & K2 & L2); auto.
    { intros x X. apply in_app_or in X. destruct X; [auto | ]. apply II, in_or_app. auto. }
    { intros x X. apply II. apply in_or_app. auto. }
    exists (vs1 ++ vs2), (t1 :: ts). cbn [concat]. rewrite !app_assoc. split; [exact I2 | ].
    split; [exact C2 | ]. split; [constructor; [apply tmpl_mono; exact T1 | exact T2] | ].
    assert (K1 : forall l a, address s l = Some a -> address s1 l = Some a).
    { intros k a E'. destruct i; cbn [addr_after] in A1; try (rewrite A1; exact E').
      destruct A1 as [A0 A1]. rewrite A1. destruct (Nat.eqb_spec k l) as [-> | ]; [congruence | exact E']. }
    split; [auto | ].
    intros [ | j p1] l p2 E'; cbn [app length] in *.
    + injection E' as -> ->. cbn [firstn concat length]. cbn [addr_after] in A1. destruct A1 as [_ A1].
      apply K2. rewrite A1, Nat.eqb_refl. f_equal. pose proof (i_pc _ _ _ I). lia.
    + injection E' as <- E'. rewrite (L2 p1 l p2 E'). cbn [firstn concat]. rewrite !app_length. f_equal. lia.
Qed.

(** ** Decoding *)

Lemma fetch_app pre b post k c :
  nth_error b k = Some c ->
  fetch (pre ++ b ++ post) (Z.of_nat (length pre) + Z.of_nat k) = Some c.
Proof.
  intros E. unfold fetch.
  destruct (Z.ltb_spec (Z.of_nat (length pre) + Z.of_nat k) 0); [lia | ].
  rewrite nth_error_app2 by lia.
  replace (Z.to_nat (Z.of_nat (length pre) + Z.of_nat k) - length pre)%nat with k by lia.
  rewrite nth_error_app1; [exact E | ]. apply nth_error_Some. congruence.
Qed.

Lemma split16 a : 0 <= a ->
  Z.shiftl (Z.shiftr a 8 mod 256) 8 + Z.land a 255 mod 256 = a mod 65536.
Proof.
  intros H. rewrite Z.shiftr_div_pow2, Z.shiftl_mul_pow2 by lia.
  change 255 with (Z.ones 8). rewrite Z.land_ones by lia. change (2 ^ 8) with 256.
  rewrite Z.mod_mod by lia. Z.div_mod_to_equations. lia.
Qed.

Section Decode.
  Variables (pre post : list Z) (vs : list obj).
  Notation at0 := (Z.of_nat (length pre)).

  Lemma fetch0 b r : fetch (pre ++ (b :: r) ++ post) at0 = Some b.
  Proof. rewrite <- (Z.add_0_r at0). apply (fetch_app pre (b :: r) post 0 b). reflexivity. Qed.
  Lemma fetch1 b c r : fetch (pre ++ (b :: c :: r) ++ post) (at0 + 1) = Some c.
  Proof. apply (fetch_app pre (b :: c :: r) post 1 c). reflexivity. Qed.
  Lemma fetch12 b c d r :
    fetch2 (pre ++ (b :: c :: d :: r) ++ post) (at0 + 1) = Some (Z.shiftl c 8 + d).
  Proof.
    unfold fetch2. rewrite fetch1. replace (at0 + 1 + 1) with (at0 + Z.of_nat 2) by lia.
    rewrite (fetch_app pre (b :: c :: d :: r) post 2 d) by reflexivity. reflexivity.
  Qed.

  Definition arg_means (op n : Z) : option dins :=
    if op =? 0x10 then match nth_error vs (Z.to_nat n) with Some v => Some (DPush v) | None => None end
    else if (op =? 0x18) || (op =? 0x20) then
      match nth_error vs (Z.to_nat n) with Some v => Some (DConst op v) | None => None end
    else Some (DArg op n).

  Lemma decode_arg op n d :
    0 <= op < 0x40 -> op mod 8 = 0 -> 0 <= n <= 65535 -> arg_means op n = Some d ->
    decode (pre ++ map (fun b => b mod 256) (arg_bytes op n) ++ post) vs at0 =
    Some (d, at0 + Z.of_nat (length (arg_bytes op n))).
  Proof.
    intros O O8 N M. unfold arg_bytes, decode.
    destruct (Z.leb_spec n 5); [ | destruct (Z.leb_spec n 255)]; cbn [map length].
    - rewrite fetch0. rewrite (Z.mod_small (op + n)) by lia.
      destruct (Z.ltb_spec (op + n) 0x40); [ | Z.div_mod_to_equations; lia].
      assert (E : (op + n) mod 8 = n) by (Z.div_mod_to_equations; lia). rewrite E.
      destruct (Z.eqb_spec n 6); [lia | ]. destruct (Z.eqb_spec n 7); [lia | ].
      replace (op + n - n) with op by lia. revert M. unfold arg_means.
      change (Z.of_nat 1) with 1.
      destruct (op =? 0x10), ((op =? 0x18) || (op =? 0x20)), (nth_error vs (Z.to_nat n)); congruence.
    - rewrite fetch0, fetch1. rewrite (Z.mod_small (op + 6)) by lia. rewrite (Z.mod_small n) by lia.
      destruct (Z.ltb_spec (op + 6) 0x40); [ | Z.div_mod_to_equations; lia].
      assert (E : (op + 6) mod 8 = 6) by (Z.div_mod_to_equations; lia). rewrite E.
      change (6 =? 6) with true. cbv iota.
      replace (op + 6 - 6) with op by lia. revert M. unfold arg_means.
      change (Z.of_nat 2) with 2.
      destruct (op =? 0x10), ((op =? 0x18) || (op =? 0x20)), (nth_error vs (Z.to_nat n)); congruence.
    - rewrite fetch0, fetch12. rewrite (Z.mod_small (op + 7)) by (Z.div_mod_to_equations; lia).
      destruct (Z.ltb_spec (op + 7) 0x40); [ | Z.div_mod_to_equations; lia].
      assert (E : (op + 7) mod 8 = 7) by (Z.div_mod_to_equations; lia). rewrite E.
      change (7 =? 6) with false. change (7 =? 7) with true. cbv iota.
      rewrite split16 by lia. rewrite (Z.mod_small n) by lia.
      replace (op + 7 - 7) with op by lia. revert M. unfold arg_means.
      change (Z.of_nat 3) with 3.
      destruct (op =? 0x10), ((op =? 0x18) || (op =? 0x20)), (nth_error vs (Z.to_nat n)); congruence.
  Qed.

  Lemma decode_push v l :
    push_bytes v = Some l ->
    decode (pre ++ map (fun b => b mod 256) l ++ post) vs at0 =
    Some (DPush v, at0 + Z.of_nat (length l)).
  Proof.
    intros E. destruct v; cbn [push_bytes] in E; try discriminate.
    - injection E as <-. unfold decode. cbn [map]. rewrite fetch0. reflexivity.
    - injection E as <-. unfold decode. cbn [map]. rewrite fetch0. reflexivity.
    - destruct (Z.leb_spec (Z.abs z) 65535) as [HZ | ]; [ | discriminate]. injection E as <-.
      unfold decode.
      destruct (Z.eqb_spec z 0) as [-> | ]; [cbn [map]; rewrite fetch0; reflexivity | ].
      destruct (Z.eqb_spec z 1) as [-> | ]; [cbn [map]; rewrite fetch0; reflexivity | ].
      destruct (Z.eqb_spec z 2) as [-> | ]; [cbn [map]; rewrite fetch0; reflexivity | ].
      destruct (Z.eqb_spec z (-1)) as [-> | ]; [cbn [map]; rewrite fetch0; reflexivity | ].
      destruct (Z.eqb_spec z (-2)) as [-> | ]; [cbn [map]; rewrite fetch0; reflexivity | ].
      destruct ((z <=? 127) && (-128 <=? z)) eqn:EI.
      + cbn [map length]. rewrite fetch0, fetch1. change (Z.of_nat 2) with 2.
        change (159 mod 256) with 159.
        change (159 <? 64) with false. change (159 =? 0x49) with false.
        change (159 =? 0x4a) with false. change (159 =? 0x9a) with false. change (159 =? 0x9b) with false.
        change (159 =? 0x9c) with false. change (159 =? 0x9d) with false. change (159 =? 0x9e) with false.
        change (159 =? 0x9f) with true. cbv iota.
        change 255 with (Z.ones 8). rewrite Z.land_ones by lia. change (2 ^ 8) with 256.
        rewrite Z.mod_mod by lia. do 3 f_equal.
        destruct (Z.ltb_spec (z mod 256) 128); Z.div_mod_to_equations; f_equal; lia.
      + destruct (Z.ltb_spec z 0).
        * cbn [map length]. rewrite fetch0, fetch12. rewrite split16 by lia.
          rewrite (Z.mod_small (- z)) by lia. change (Z.of_nat 3) with 3.
          change (160 mod 256) with 160.
          change (160 <? 64) with false. change (160 =? 0x49) with false.
          change (160 =? 0x4a) with false. change (160 =? 0x9a) with false. change (160 =? 0x9b) with false.
          change (160 =? 0x9c) with false. change (160 =? 0x9d) with false. change (160 =? 0x9e) with false.
          change (160 =? 0x9f) with false. change (160 =? 0xa0) with true. cbv iota.
          rewrite Z.opp_involutive. reflexivity.
        * cbn [map length]. rewrite fetch0, fetch12. rewrite split16 by lia.
          rewrite (Z.mod_small z) by lia. reflexivity.
  Qed.

  Lemma decode_push_label a :
    0 <= a ->
    decode (pre ++ [0xa1; Z.shiftr a 8 mod 256; Z.land a 255 mod 256] ++ post) vs at0 =
    Some (DPush (OFix (a mod 65536)), at0 + 3).
  Proof.
    intros A. unfold decode. rewrite fetch0, fetch12. rewrite split16 by lia. reflexivity.
  Qed.

  Lemma decode_jump op a :
    0xf8 <= op <= 0xff -> 0 <= a ->
    decode (pre ++ [op; Z.shiftr a 8 mod 256; Z.land a 255 mod 256] ++ post) vs at0 =
    Some (DJump op (a mod 65536), at0 + 3).
  Proof.
    intros O A. unfold decode. rewrite fetch0, fetch12. rewrite split16 by lia.
    repeat match goal with
           | |- context [if op =? ?c then _ else _] => destruct (Z.eqb_spec op c); [lia | ]
           end.
    destruct (Z.ltb_spec op 64); [lia | ]. destruct (Z.leb_spec 0xf8 op); [reflexivity | lia].
  Qed.

  Lemma decode_plain op :
    0x40 <= op < 0xf8 -> op <> 0x9f -> op <> 0xa0 -> op <> 0xa1 ->
    decode (pre ++ [op] ++ post) vs at0 = Some (plain op, at0 + 1).
  Proof.
    intros O N1 N2 N3. unfold decode. rewrite fetch0. unfold plain.
    destruct (Z.ltb_spec op 64); [lia | ].
    repeat match goal with
           | |- context [if op =? ?c then _ else _] => destruct (Z.eqb_spec op c); [try reflexivity; lia | ]
           end.
    destruct (Z.leb_spec 0xf8 op); [lia | reflexivity].
  Qed.
End Decode.

Definition real (env : nat -> Z) (l : nat) : Z := env l mod 65536.

(** An instruction's bytes decode to its meaning *)
Lemma decode_tmpl pre post vs env i t :
  good_insn i -> tmpl vs i t -> (forall l, 0 <= env l) ->
  (t = [] /\ means (real env) i = []) \/
  (exists d, means (real env) i = [d] /\
   decode (pre ++ map (final env) t ++ post) vs (Z.of_nat (length pre)) =
   Some (d, Z.of_nat (length pre) + Z.of_nat (length t))).
Proof.
  assert (MB : forall l, map (final env) (map B l) = map (fun b => b mod 256) l).
  { intros l. rewrite map_map. reflexivity. }
  intros G T NN. destruct i as [l | v | l | op v | op l | op [n | ]]; cbn [tmpl good_insn] in *.
  - left. auto.
  - right. eexists. split; [reflexivity | ]. destruct (push_bytes v) eqn:E.
    + subst t. rewrite MB, map_length. apply decode_push. exact E.
    + destruct T as (k & K & EK & ->). rewrite MB, map_length. apply decode_arg; try lia; [reflexivity | ].
      unfold arg_means. change (0x10 =? 0x10) with true. cbv iota. rewrite EK. reflexivity.
  - right. eexists. split; [reflexivity | ]. subst t. cbn [map final length].
    apply decode_push_label. apply NN.
  - right. eexists. split; [reflexivity | ]. destruct T as (k & K & EK & ->). rewrite MB, map_length.
    destruct G as [-> | ->]; (apply decode_arg; [lia | reflexivity | lia | ]);
      unfold arg_means; rewrite EK; reflexivity.
  - right. eexists. split; [reflexivity | ]. subst t. cbn [map final length].
    rewrite (Z.mod_small op) by lia. apply decode_jump; [lia | apply NN].
  - right. eexists. split; [reflexivity | ]. destruct T as [T0 ->]. rewrite MB, map_length.
    destruct G as [G N]. apply decode_arg; [lia | | lia | ].
    + destruct G as [-> | [-> | [-> | [-> | ->]]]]; reflexivity.
    + unfold arg_means.
      destruct (Z.eqb_spec op 0x10); [lia | ]. destruct (Z.eqb_spec op 0x18); [lia | ].
      destruct (Z.eqb_spec op 0x20); [lia | ]. reflexivity.
  - right. eexists. split; [reflexivity | ]. subst t. cbn [map final length].
    rewrite (Z.mod_small op) by lia. apply decode_plain; tauto.
Qed.

Lemma decode_all vs env p : forall ts pre,
  Forall good_insn p -> Forall2 (tmpl vs) p ts -> (forall l, 0 <= env l) ->
  exists ds,
    disassembles (pre ++ map (final env) (concat ts)) vs (Z.of_nat (length pre)) ds /\
    map snd ds = listing (real env) p /\
    forall p1 p2, p = p1 ++ p2 ->
      address_of (pre ++ map (final env) (concat ts)) ds (length (listing (real env) p1)) =
      Z.of_nat (length pre) + Z.of_nat (length (concat (firstn (length p1) ts))).
Proof.
  induction p as [ | i p IH]; intros ts pre G T NN; inversion T as [ | ? t ? ts' T1 T2]; subst.
  - exists []. cbn [concat map]. rewrite app_nil_r. split; [constructor | ]. split; [reflexivity | ].
    intros [ | ? ?] p2 E; [ | discriminate]. cbn. lia.
  - inversion G as [ | ? ? G1 G2]; subst.
    destruct (IH ts' (pre ++ map (final env) t) G2 T2 NN) as (ds & D1 & D2 & D3).
    rewrite app_length, map_length, <- app_assoc, <- map_app in *.
    cbn [concat]. change (listing (real env) (i :: p)) with (means (real env) i ++ listing (real env) p).
    destruct (decode_tmpl pre (map (final env) (concat ts')) vs env i t G1 T1 NN) as [[-> M] | (d & M & D)].
    + rewrite M. cbn [app]. exists ds. cbn [app length] in *. rewrite Nat.add_0_r in D1.
      split; [exact D1 | ]. split; [exact D2 | ].
      intros [ | j p1] p2 E.
      * specialize (D3 [] p eq_refl). cbn [listing flat_map length firstn concat] in *. lia.
      * cbn [app] in E. injection E as <- E.
        change (listing (real env) (i :: p1)) with (means (real env) i ++ listing (real env) p1).
        rewrite M. cbn [app length firstn concat]. rewrite (D3 p1 p2 E). cbn [length]. lia.
    + rewrite M. exists ((Z.of_nat (length pre), d) :: ds).
      split.
      { econstructor.
        - rewrite map_app. exact D.
        - rewrite <- Nat2Z.inj_add. exact D1. }
      split; [cbn [map snd app]; rewrite D2; reflexivity | ].
      intros [ | j p1] p2 E.
      * cbn. lia.
      * cbn [app] in E. injection E as <- E.
        change (listing (real env) (i :: p1)) with (means (real env) i ++ listing (real env) p1).
        rewrite M. cbn [app length firstn concat].
        change (address_of ?b ((?x, ?y) :: ds) (S ?k)) with (address_of b ds k).
        rewrite (D3 p1 p2 E). rewrite app_length. lia.
Qed.

(** ** The assembler *)

Lemma labels_in (p : list src) l :
  In l (flat_map label p) -> exists p1 p2, p = p1 ++ Label l :: p2.
Proof.
  intros H. apply in_flat_map in H. destruct H as (i & I1 & I2).
  destruct i; cbn in I2; try tauto. destruct I2 as [-> | []]. apply in_split. exact I1.
Qed.

Lemma tmpl_targets vs p ts l :
  Forall2 (tmpl vs) p ts -> In (Hi l) (concat ts) \/ In (Lo l) (concat ts) -> In l (flat_map target p).
Proof.
  assert (NB : forall l b, ~ (In (Hi l) (map B b) \/ In (Lo l) (map B b))).
  { intros k b [E | E]; apply in_map_iff in E; destruct E as (? & E & _); discriminate. }
  induction 1 as [ | i t p ts T T2 IH]; cbn [concat flat_map]; [tauto | ].
  intros H. apply in_or_app.
  assert (H' : (In (Hi l) t \/ In (Lo l) t) \/ (In (Hi l) (concat ts) \/ In (Lo l) (concat ts))).
  { destruct H as [H | H]; apply in_app_or in H; tauto. }
  destruct H' as [H' | H']; [left | right; auto].
  destruct i as [k | v | k | op v | op k | op [n | ]]; cbn [tmpl target] in *.
  - subst t. cbn in H'. tauto.
  - destruct (push_bytes v); [subst t | destruct T as (j & _ & _ & ->)]; destruct (NB _ _ H').
  - subst t. cbn in H'. left. intuition congruence.
  - destruct T as (j & _ & _ & ->). destruct (NB _ _ H').
  - subst t. cbn in H'. left. intuition congruence.
  - destruct T as [_ ->]. destruct (NB _ _ H').
  - subst t. cbn in H'. intuition congruence.
Qed.

(** What the bytes say in general: addresses are kept modulo 2^16 *)
Lemma assemble_general p start bytes cs :
  0 <= start -> good p -> distinct_constants p ->
  assemble p start = Some (bytes, cs) ->
  exists env ds,
    disassembles bytes cs start ds /\
    map snd ds = listing (real env) p /\
    (forall p1 l p2, p = p1 ++ Label l :: p2 ->
       env l = address_of bytes ds (length (listing (real env) p1))) /\
    (exists ts, Forall2 (tmpl cs) p ts /\ Z.of_nat (length bytes) = start + Z.of_nat (length (concat ts)) /\
       (forall p1 l p2, p = p1 ++ Label l :: p2 ->
          env l = start + Z.of_nat (length (concat (firstn (length p1) ts))))) /\
    (forall l, 0 <= env l).
Proof.
  intros S0 [G GL] D0 E.
  assert (D : forall v w, In v (flat_map constant p) -> In w (flat_map constant p) -> equalo v w = true -> v = w).
  { intros v w V W Q. destruct (equalo_alike v w Q) as [X | X]; auto. }
  unfold assemble in E.
  destruct (emit_all p (init start)) as [s | ] eqn:EE; [ | discriminate]. injection E as <- <-.
  destruct (emit_all_steps start (flat_map constant p) p [] (init start) [] s) as (vs & ts & I & C & T & _ & L);
    auto using Inv_init, incl_nil_l, incl_refl.
  { split; [reflexivity | ]. intros v i. cbn. split; [tauto | ]. destruct (Z.to_nat i); intros []; discriminate. }
  cbn [app length] in *. rewrite (CI_vec _ _ C).
  set (env := fun l => match address s l with Some a => Z.max 0 a | None => 0 end).
  assert (ENV : forall p1 l p2, p = p1 ++ Label l :: p2 ->
          env l = start + Z.of_nat (length (concat (firstn (length p1) ts)))).
  { intros p1 l p2 E. unfold env. rewrite (L p1 l p2 E). lia. }
  assert (NN : forall l, 0 <= env l).
  { intros l. unfold env. destruct (address s l); lia. }
  destruct (Inv_bytes start (concat ts) s env S0 I) as (pre & LP & ->).
  { intros c l IC [-> | ->].
    - assert (In l (flat_map label p)) by (apply GL; eapply tmpl_targets; eauto).
      destruct (labels_in p l) as (p1 & p2 & E); [assumption | ].
      rewrite (L p1 l p2 E), (ENV p1 l p2 E). f_equal. lia.
    - assert (In l (flat_map label p)) by (apply GL; eapply tmpl_targets; eauto).
      destruct (labels_in p l) as (p1 & p2 & E); [assumption | ].
      rewrite (L p1 l p2 E), (ENV p1 l p2 E). f_equal. lia. }
  destruct (decode_all vs env p ts pre G T NN) as (ds & D1 & D2 & D3).
  assert (LP' : Z.of_nat (length pre) = start) by lia. rewrite LP' in *.
  exists env, ds. split; [exact D1 | ]. split; [exact D2 | ]. split; [ | split; [ | exact NN]].
  - intros p1 l p2 E. rewrite (D3 p1 (Label l :: p2) E). apply (ENV p1 l p2 E).
  - exists ts. split; [exact T | ]. split; [ | exact ENV].
    rewrite app_length, map_length. lia.
Qed.

Lemma firstn_le {A} n (l : list (list A)) : (length (concat (firstn n l)) <= length (concat l))%nat.
Proof.
  rewrite <- (firstn_skipn n l) at 2. rewrite concat_app, app_length. lia.
Qed.

Lemma listing_ext env env' p :
  (forall l, In l (flat_map target p) -> env l = env' l) -> listing env p = listing env' p.
Proof.
  induction p as [ | i p IH]; intros H; [reflexivity | ].
  change (means env i ++ listing env p = means env' i ++ listing env' p). rewrite IH.
  - f_equal. destruct i; cbn [means]; try reflexivity; rewrite H; auto; cbn; auto.
  - intros l L. apply H. cbn [flat_map]. apply in_or_app. auto.
Qed.

Lemma listing_length env env' p : length (listing env p) = length (listing env' p).
Proof.
  induction p as [ | i p IH]; [reflexivity | ].
  change (length (means env i ++ listing env p) = length (means env' i ++ listing env' p)).
  rewrite !app_length, IH. f_equal. destruct i as [ | | | | | ? [ | ]]; reflexivity.
Qed.

Lemma assemble_correct p start bytes cs :
  0 <= start -> good p -> distinct_constants p ->
  assemble p start = Some (bytes, cs) -> Z.of_nat (length bytes) <= 65535 ->
  faithful p start bytes cs.
Proof.
  intros S0 G D E LB.
  destruct (assemble_general p start bytes cs S0 G D E) as (env & ds & D1 & D2 & D3 & (ts & T1 & T2 & T3) & NN).
  exists env, ds. split; [exact D1 | ]. split.
  - rewrite D2. apply listing_ext. intros l L. destruct G as [_ GL]. apply GL in L.
    destruct (labels_in p l L) as (p1 & p2 & EP). unfold real. apply Z.mod_small.
    rewrite (T3 p1 l p2 EP). pose proof (firstn_le (length p1) ts). lia.
  - intros p1 l p2 EP. rewrite (D3 p1 l p2 EP). f_equal. apply listing_length.
Qed.

(** ** Within the limits, the assembler does not fail *)

Lemma get_const_next v s :
  fst (get_const_id v s) <= Z.max (next_id s) (fst (get_const_id v s)) /\
  next_id s <= next_id (snd (get_const_id v s)) <= next_id s + 1.
Proof. unfold get_const_id. destruct (assoc v (consts s)); cbn [fst snd next_id]; lia. Qed.

Definition ids_ok (s : ast) : Prop :=
  0 <= next_id s /\ forall v i, In (v, i) (consts s) -> i < next_id s.

Lemma get_const_ids v s :
  ids_ok s -> ids_ok (snd (get_const_id v s)) /\ fst (get_const_id v s) <= next_id s /\
  next_id (snd (get_const_id v s)) <= next_id s + 1.
Proof.
  intros [H0 H]. unfold get_const_id. destruct (assoc v (consts s)) as [i | ] eqn:E; cbn [fst snd next_id].
  - destruct (assoc_some _ _ _ E) as (w & _ & E2). apply H in E2. repeat split; auto; lia.
  - repeat split; cbn [next_id consts]; try lia.
    intros w i [X | X]; [injection X as <- <-; lia | apply H in X; lia].
Qed.

Lemma emit_ok i s :
  good_insn i -> ids_ok s ->
  (forall l, In l (label i) -> address s l = None) ->
  next_id s + Z.of_nat (length (constant i)) <= 65536 ->
  (match i with Insn op (Some n) => n <= 65535 | _ => True end) ->
  exists s', emit i s = Some s' /\ ids_ok s' /\
    next_id s' <= next_id s + Z.of_nat (length (constant i)) /\
    (forall l, ~ In l (label i) -> address s' l = address s l).
Proof.
  intros G I A N F.
  assert (WC : forall op v, op < 0x3f -> next_id s + 1 <= 65536 ->
    exists s', (let '(k, s) := get_const_id v s in emit_insn op (Some k) s) = Some s' /\ ids_ok s' /\
      next_id s' <= next_id s + 1 /\ address s' = address s).
  { intros op v O NX. destruct (get_const_ids v s I) as (I1 & I2 & I3).
    destruct (get_const_id_fields v s) as (_ & _ & EA & _).
    destruct (get_const_id v s) as [k s1]. cbn [fst snd] in *.
    rewrite emit_insn_arg by assumption. destruct (Z.leb_spec k 65535); [ | lia].
    destruct (emits_fields (arg_bytes op k) s1) as (F1 & F2 & F3 & _).
    eexists. split; [reflexivity | ]. unfold ids_ok. rewrite F1, F2, F3. auto. }
  destruct i as [l | v | l | op v | op l | op arg]; cbn [emit].
  - unfold emit_label. rewrite A by (left; reflexivity). eexists. split; [reflexivity | ].
    destruct (backpatch_fields (pc s) (forwards s l) (set_address l (pc s) s)) as (B1 & B2 & B3 & B4 & B5).
    unfold ids_ok. cbn [set_forwards consts next_id address pc set_address forwards] in *. rewrite B2, B4, B5.
    cbn [set_address consts next_id address constant length]. split; [exact I | ]. split; [lia | ].
    intros k K. destruct (Nat.eqb_spec k l) as [-> | ]; [ | reflexivity]. destruct K. left. reflexivity.
  - destruct (push_bytes v) as [l | ] eqn:EP.
    + rewrite (emit_push_bytes _ _ _ EP). eexists. split; [reflexivity | ].
      destruct (emits_fields l s) as (F1 & F2 & F3 & _). unfold ids_ok. rewrite F1, F2, F3.
      split; [exact I | ]. split; [lia | auto].
    + destruct (emit_push_const v s EP) as [E1 E2]. rewrite E1. rewrite E2 in *. cbn [length] in *.
      destruct (WC 0x10 v) as (s' & W1 & W2 & W3 & W4); try lia.
      exists s'. rewrite W4. auto.
  - eexists. split; [reflexivity | ]. unfold emit_push_label.
    destruct (label_addr_fields l (emit_byte 0xa1 s)) as (F1 & F2 & F3). unfold ids_ok.
    rewrite F1, F2, F3. split; [exact I | ]. split; [cbn; lia | auto].
  - cbn [good_insn constant length] in *. destruct (WC op v) as (s' & W1 & W2 & W3 & W4); try lia.
    exists s'. rewrite W4. auto.
  - eexists. split; [reflexivity | ]. unfold emit_jmp.
    destruct (label_addr_fields l (emit_byte op s)) as (F1 & F2 & F3). unfold ids_ok.
    rewrite F1, F2, F3. split; [exact I | ]. split; [cbn; lia | auto].
  - destruct arg as [n | ]; cbn [good_insn] in G.
    + rewrite emit_insn_arg by lia. destruct (Z.leb_spec n 65535); [ | lia].
      eexists. split; [reflexivity | ].
      destruct (emits_fields (arg_bytes op n) s) as (F1 & F2 & F3 & _). unfold ids_ok. rewrite F1, F2, F3.
      split; [exact I | ]. split; [lia | auto].
    + unfold emit_insn. destruct (Z.leb_spec 0x3f op); [ | lia].
      eexists. split; [reflexivity | ]. split; [exact I | ]. split; [cbn; lia | reflexivity].
Qed.

Lemma emit_all_ok p : forall s,
  Forall good_insn p -> ids_ok s -> NoDup (flat_map label p) ->
  (forall l, In l (flat_map label p) -> address s l = None) ->
  next_id s + Z.of_nat (length (flat_map constant p)) <= 65536 ->
  Forall (fun i => match i with Insn op (Some n) => n <= 65535 | _ => True end) p ->
  exists s', emit_all p s = Some s'.
Proof.
  induction p as [ | i p IH]; intros s G I ND A N F; cbn [emit_all]; [eauto | ].
  inversion G as [ | ? ? G1 G2]; inversion F as [ | ? ? F1 F2]; subst. cbn [flat_map] in *.
  rewrite app_length in N.
  destruct (emit_ok i s G1 I) as (s' & E & I' & N' & A'); auto.
  { intros l L. apply A, in_or_app. auto. }
  { lia. }
  rewrite E. apply IH; auto.
  - clear - ND. induction (label i); cbn in *; [exact ND | ]. inversion ND; auto.
  - intros l L. rewrite A'; [apply A, in_or_app; auto | ].
    intros L'. revert ND L' L. clear. induction (label i) as [ | x r IHr]; cbn; [tauto | ].
    intros ND [-> | L'] L; inversion ND; subst; [ | auto].
    apply H1, in_or_app. auto.
  - lia.
Qed.

Lemma assemble_ok p start :
  Forall good_insn p -> in_limits p -> exists bytes cs, assemble p start = Some (bytes, cs).
Proof.
  intros G (L1 & L2 & L3). destruct (emit_all_ok p (init start)) as (s & E); auto.
  { split; cbn; [lia | tauto]. }
  unfold assemble. rewrite E. eauto.
Qed.

(** and failing outside them *)
Lemma emit_addr_mono p : forall s s', emit_all p s = Some s' -> 
  forall l, address s l <> None -> ~ In l (flat_map label p).
Proof.
  assert (K : forall i s s', emit i s = Some s' -> forall l, address s l <> None -> 
             address s' l <> None /\ ~ In l (label i)).
  { intros i s s' E l A. destruct i as [k | v | k | op v | op k | op arg]; cbn [emit label In] in *.
    - destruct (emit_label_fields _ _ _ E) as (E0 & E1 & _). rewrite E1.
      destruct (Nat.eqb_spec l k) as [-> | ]; [congruence | ]. split; [assumption | ]. intros [X | []]. congruence.
    - split; [ | tauto]. destruct (push_bytes v) as [b | ] eqn:EP.
      + rewrite (emit_push_bytes _ _ _ EP) in E. injection E as <-.
        destruct (emits_fields b s) as (F1 & _). rewrite F1. exact A.
      + destruct (emit_push_const v s EP) as [E1 _]. rewrite E1 in E.
        destruct (get_const_id_fields v s) as (_ & _ & EA & _). destruct (get_const_id v s) as [k s1].
        cbn [snd] in EA. rewrite emit_insn_arg in E by lia. destruct (k <=? 65535); [ | discriminate].
        injection E as <-. destruct (emits_fields (arg_bytes 0x10 k) s1) as (F1 & _). rewrite F1, EA. exact A.
    - injection E as <-. split; [ | tauto]. unfold emit_push_label.
      destruct (label_addr_fields k (emit_byte 0xa1 s)) as (F1 & _). rewrite F1. exact A.
    - split; [ | tauto]. destruct (get_const_id_fields v s) as (_ & _ & EA & _). destruct (get_const_id v s) as [k s1].
      cbn [snd] in EA. assert (X : forall op arg s s', emit_insn op arg s = Some s' -> address s' = address s).
      { clear. intros op arg s s'. unfold emit_insn.
        repeat match goal with
               | |- context [match ?x with _ => _ end] => destruct x
               | |- context [if ?x then _ else _] => destruct x
               end; intros E; try discriminate; injection E as <-; reflexivity. }
      rewrite (X _ _ _ _ E), EA. exact A.
    - injection E as <-. split; [ | tauto]. unfold emit_jmp.
      destruct (label_addr_fields k (emit_byte op s)) as (F1 & _). rewrite F1. exact A.
    - split; [ | tauto]. assert (X : forall op arg s s', emit_insn op arg s = Some s' -> address s' = address s).
      { clear. intros op arg s s'. unfold emit_insn.
        repeat match goal with
               | |- context [match ?x with _ => _ end] => destruct x
               | |- context [if ?x then _ else _] => destruct x
               end; intros E; try discriminate; injection E as <-; reflexivity. }
      rewrite (X _ _ _ _ E). exact A. }
  induction p as [ | i p IH]; intros s s' E l A; cbn [flat_map]; [tauto | ].
  cbn [emit_all] in E. destruct (emit i s) as [s1 | ] eqn:E1; [ | discriminate].
  destruct (K _ _ _ E1 l A) as [K1 K2]. intros L. apply in_app_or in L. destruct L; [tauto | ].
  eapply IH; eauto.
Qed.

Lemma assemble_dup p start :
  ~ NoDup (flat_map label p) -> assemble p start = None.
Proof.
  intros ND. unfold assemble. destruct (emit_all p (init start)) as [s | ] eqn:E; [exfalso | reflexivity].
  apply ND. clear ND. revert E. generalize (init start). induction p as [ | i p IH]; intros s0 E; [constructor | ].
  cbn [emit_all] in E. destruct (emit i s0) as [s1 | ] eqn:E1; [ | discriminate]. cbn [flat_map].
  destruct i; cbn [label app]; try (apply (IH s1); exact E).
  constructor; [ | apply (IH s1); exact E].
  eapply emit_addr_mono; [exact E | ]. cbn [emit] in E1.
  destruct (emit_label_fields _ _ _ E1) as (_ & A & _). rewrite A, Nat.eqb_refl. discriminate.
Qed.

(** ** The disassembler *)

Lemma disasm_agrees bytes cs p i p' :
  Forall (fun b => 0 <= b < 256) bytes ->
  decode bytes cs p = Some (i, p') -> fetch bytes p <> Some 0x3f ->
  disasm_next bytes p = Some p'.
Proof.
  intros FB. unfold decode, disasm_next. destruct (fetch bytes p) as [c | ] eqn:E; [ | discriminate].
  intros D N. assert (C : 0 <= c < 256).
  { unfold fetch in E. destruct (p <? 0); [discriminate | ]. rewrite Forall_forall in FB. apply FB. eapply nth_error_In; eauto. }
  assert (c <> 0x3f) by congruence.
  change 7 with (Z.ones 3) in *. rewrite Z.land_ones by lia. change (2 ^ 3) with 8.
  change (Z.ones 3) with 7 in *.
  destruct (Z.ltb_spec c 0x40).
  - destruct (Z.ltb_spec c 0x3f); [ | lia].
    destruct (Z.eqb_spec (c mod 8) 6).
    + destruct (fetch bytes (p + 1)) as [m | ]; [ | discriminate].
      destruct (Z.ltb_spec (c mod 8) 6); [lia | ].
      destruct ((c - c mod 8) =? 16), ((c - c mod 8 =? 24) || (c - c mod 8 =? 32)),
        (nth_error cs (Z.to_nat m)); congruence.
    + destruct (Z.eqb_spec (c mod 8) 7).
      * destruct (fetch2 bytes (p + 1)) as [m | ]; [ | discriminate].
        destruct (Z.ltb_spec (c mod 8) 6); [lia | ].
        destruct ((c - c mod 8) =? 16), ((c - c mod 8 =? 24) || (c - c mod 8 =? 32)),
          (nth_error cs (Z.to_nat m)); congruence.
      * destruct (Z.ltb_spec (c mod 8) 6); [ | Z.div_mod_to_equations; lia].
        destruct ((c - c mod 8) =? 16), ((c - c mod 8 =? 24) || (c - c mod 8 =? 32)),
          (nth_error cs (Z.to_nat (c mod 8))); congruence.
  - destruct (Z.ltb_spec c 0x3f); [lia | ].
    destruct (Z.ltb_spec 0xf7 c).
    + repeat match type of D with
             | context [if c =? ?k then _ else _] => destruct (Z.eqb_spec c k); [lia | ]
             end.
      destruct (Z.leb_spec 0xf8 c); [ | lia]. destruct (fetch2 bytes (p + 1)); congruence.
    + destruct (Z.leb_spec 0xf8 c); [lia | ].
      destruct (Z.eqb_spec c 0x9f) as [-> | ].
      { cbn in D. destruct (fetch bytes (p + 1)); congruence. }
      destruct (Z.eqb_spec c 0xa0) as [-> | ].
      { cbn in D. destruct (fetch2 bytes (p + 1)); cbn; congruence. }
      destruct (Z.eqb_spec c 0xa1) as [-> | ].
      { cbn in D. destruct (fetch2 bytes (p + 1)); cbn; congruence. }
      cbn [orb].
      repeat match type of D with
             | context [if c =? ?k then _ else _] => destruct (c =? k); [congruence | ]
             end. congruence.
Qed.

(** ** The stack word *)

Lemma stack_word_ok v b s :
  0 <= v < 1024 -> 0 <= b < 1024 -> 0 <= s -> stack_sizes (stack_word v b s) = (v, b, s).
Proof.
  intros V B S. unfold stack_sizes, stack_word.
  change 0x3ff with (Z.ones 10). rewrite !Z.land_ones by lia.
  rewrite !Z.shiftl_mul_pow2, !Z.shiftr_div_pow2 by lia.
  change (2 ^ 10) with 1024. change (2 ^ 20) with 1048576.
  repeat f_equal; Z.div_mod_to_equations; lia.
Qed.

(** ** Refutations *)

Lemma decode_end b cs : decode b cs (Z.of_nat (length b)) = None.
Proof.
  unfold decode, fetch. destruct (Z.of_nat (length b) <? 0); [reflexivity | ].
  rewrite Nat2Z.id. destruct (nth_error b (length b)) eqn:E; [ | reflexivity].
  assert (length b < length b)%nat by (apply nth_error_Some; congruence). lia.
Qed.

Lemma disassembles_fun b cs a ds ds' : disassembles b cs a ds -> disassembles b cs a ds' -> ds = ds'.
Proof.
  intros H. revert ds'. induction H as [ | a i a' ds D H IH]; intros ds' H'; inversion H'; subst.
  - reflexivity.
  - rewrite decode_end in *. discriminate.
  - rewrite decode_end in *. discriminate.
  - rewrite D in *. match goal with E : Some _ = Some _ |- _ => injection E as <- <- end. f_equal. auto.
Qed.

Lemma forall2_app_l {A B} (R : A -> B -> Prop) l1 l2 ts :
  Forall2 R (l1 ++ l2) ts -> Forall2 R l1 (firstn (length l1) ts).
Proof.
  revert ts. induction l1 as [ | x l1 IH]; intros ts H; cbn in *; [constructor | ].
  inversion H; subst. constructor; auto.
Qed.

Lemma dups_size vs n ts :
  Forall2 (tmpl vs) (repeat (Insn 0x42 None) n) ts -> length (concat ts) = n.
Proof.
  revert ts. induction n as [ | n IH]; intros ts H; inversion H; subst; [reflexivity | ].
  cbn [concat]. rewrite app_length, (IH _ H4). cbn [tmpl] in H2. subst y. reflexivity.
Qed.

Lemma flat_repeat {A B} (f : A -> list B) x n : f x = [] -> flat_map f (repeat x n) = [].
Proof. intros E. induction n; cbn; rewrite ?E; auto. Qed.

Lemma long_refuted_n n : Z.of_nat n = 65536 ->
  exists p bytes cs, good p /\ distinct_constants p /\ assemble p 0 = Some (bytes, cs) /\
  ~ faithful p 0 bytes cs.
Proof.
  intros N. exists (repeat (Insn 0x42 None) n ++ [Label 0; Jump 0xff 0]).
  assert (G : good (repeat (Insn 0x42 None) n ++ [Label 0; Jump 0xff 0])).
  { split.
    - apply Forall_app. split.
      + apply Forall_forall. intros x X. apply repeat_spec in X. subst. cbn. lia.
      + repeat constructor; cbn; lia.
    - rewrite !flat_map_app, !flat_repeat by reflexivity. cbn. apply incl_refl. }
  assert (DC : distinct_constants (repeat (Insn 0x42 None) n ++ [Label 0; Jump 0xff 0])).
  { intros v w V. rewrite flat_map_app, flat_repeat in V by reflexivity. destruct V. }
  assert (L : in_limits (repeat (Insn 0x42 None) n ++ [Label 0; Jump 0xff 0])).
  { split; [ | split].
    - rewrite flat_map_app, flat_repeat by reflexivity. cbn. repeat constructor. tauto.
    - rewrite flat_map_app, flat_repeat by reflexivity. cbn. lia.
    - apply Forall_app. split.
      + apply Forall_forall. intros x X. apply repeat_spec in X. subst. exact Logic.I.
      + repeat constructor. }
  destruct (assemble_ok _ 0 (proj1 G) L) as (bytes & cs & E). exists bytes, cs.
  split; [exact G | ]. split; [exact DC | ]. split; [exact E | ].
  intros (env & ds & D1 & D2 & D3).
  destruct (assemble_general _ 0 bytes cs ltac:(lia) G DC E)
    as (env0 & ds0 & A1 & A2 & A3 & (ts & T1 & T2 & T3) & _).
  assert (ds0 = ds) by (eapply disassembles_fun; eauto). subst ds0.
  rewrite A2 in D2. unfold listing in D2. rewrite !flat_map_app in D2.
  assert (X : real env0 0%nat = env 0%nat).
  { assert (R : forall e e', flat_map (means e) (repeat (Insn 0x42 None) n) = flat_map (means e') (repeat (Insn 0x42 None) n)).
    { intros e e'. generalize n. intros m. induction m as [ | m IH]; [reflexivity | ].
      cbn [repeat flat_map]. rewrite IH. reflexivity. }
    rewrite (R _ env) in D2. apply app_inv_head in D2. cbn in D2. congruence. }
  assert (Y : env 0%nat = env0 0%nat).
  { rewrite (D3 _ 0%nat _ eq_refl), (A3 _ 0%nat _ eq_refl). f_equal. apply listing_length. }
  assert (Z0 : env0 0%nat = 65536).
  { rewrite (T3 _ 0%nat _ eq_refl). rewrite (dups_size cs n).
    - lia.
    - eapply forall2_app_l. exact T1. }
  unfold real in X. rewrite Y, Z0 in X. cbn in X. discriminate.
Qed.

Lemma long_refuted :
  exists p bytes cs, good p /\ distinct_constants p /\ assemble p 0 = Some (bytes, cs) /\
  ~ faithful p 0 bytes cs.
Proof. apply (long_refuted_n (Z.to_nat 65536)). apply Z2Nat.id. lia. Qed.

Lemma equal_refuted :
  exists p bytes cs, good p /\ assemble p 0 = Some (bytes, cs) /\ Z.of_nat (length bytes) <= 65535 /\
  ~ faithful p 0 bytes cs.
Proof.
  exists [Push (OFix (2 ^ 32)); Push (OFix (2 ^ 33))]. do 2 eexists.
  split. { split; [repeat constructor | cbn; apply incl_refl]. }
  split; [vm_compute; reflexivity | ]. split; [vm_compute; discriminate | ].
  intros (env & ds & D1 & D2 & _).
  inversion D1 as [X | ? ? ? ? E1 D1']; subst; vm_compute in E1; try discriminate.
  injection E1 as <- <-.
  inversion D1' as [X | ? ? ? ? E2 D2']; subst; vm_compute in E2; try discriminate.
  injection E2 as <- <-. cbn in D2. congruence.
Qed.

Lemma undefined_refuted :
  exists p bytes cs ds, Forall good_insn p /\ distinct_constants p /\ in_limits p /\
  assemble p 0 = Some (bytes, cs) /\ disassembles bytes cs 0 ds /\
  map snd ds = [DJump 0xff 0x2020].
Proof.
  exists [Jump 0xff 7]. do 3 eexists.
  split. { repeat constructor; cbn; lia. }
  split. { intros v w []. }
  split. { split; [constructor | ]. split; [cbn; lia | repeat constructor]. }
  split; [vm_compute; reflexivity | ]. split.
  - econstructor; [vm_compute; reflexivity | ].
    match goal with |- disassembles ?b _ ?n _ => change n with (Z.of_nat (length b)) end. constructor.
  - reflexivity.
Qed.

Lemma disasm_refuted :
  exists p bytes cs a i a', good p /\ assemble p 0 = Some (bytes, cs) /\
  decode bytes cs a = Some (i, a') /\ disasm_next bytes a <> Some a'.
Proof.
  exists [Insn 0x38 (Some 300)]. do 2 eexists. exists 0. do 2 eexists.
  split. { split; [repeat constructor; cbn; lia | cbn; apply incl_refl]. }
  split; [vm_compute; reflexivity | ]. split; [vm_compute; reflexivity | ]. vm_compute. congruence.
Qed.
