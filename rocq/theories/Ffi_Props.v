(** C86: values passed through the foreign function interface arrive.  *)

From Coq Require Import ZArith List Bool Lia ZifyBool.
From Verif Require Import Ffi_Model Ffi_Spec Ffi_Proofs Ffi_Trip Ffi_More.
Import ListNotations.
Open Scope Z_scope.

(** What ffi-set! writes, ffi-get reads: for all types without aliases and
    empty structures, all values in range, all memories and addresses. *)
Theorem C86_round_trip_partial : forall call junk tab id ct v w m p,
  made tab -> means tab id ct -> fits ct v w ->
  exists m' q, ffi_set call tab id p v m = MOk m' q /\
               ffi_get call junk tab id p m' = DOk w m' q.
Proof.
  intros call junk tab id ct v w m p Md M F. pose proof (made_wf _ Md) as W.
  destruct (means_entry _ _ _ M) as [t N].
  destruct (set_written call junk tab W id ct t v w m p M N F) as (m' & E & _ & H).
  exists m', (align p (f_align t) + content ct). split; [exact E|].
  exact (proj1 (H m' (fun _ _ => eq_refl))).
Qed.
Print Assumptions C86_round_trip_partial.

(** ffi-set! changes no byte outside the size of the type at the aligned
    address, whatever the value, also through aliases and when it fails. *)
Theorem C86_bounds_partial : forall call tab id t v m p,
  made tab -> solid tab id -> nth_error tab id = Some t ->
  match ffi_set call tab id p v m with
  | MOk m' _ | MErr m' => untouched m m' (align p (f_align t)) (f_size t)
  | MWild _ => True
  end.
Proof.
  intros call tab id t v m p Md S1 N. pose proof (made_wf _ Md) as W.
  pose proof (marshal_inside call tab W (S id) id t v m (align p (f_align t))
                (Nat.lt_succ_diag_r id) S1 N) as I.
  unfold ffi_set, marshal. rewrite N.
  destruct (marshal_n call tab (S id) id v m (align p (f_align t))) as [m' q|m'|m'];
    cbn [inside] in I; [|exact I|exact Logic.I].
  destruct I as [I1 I2]. intros a Ha. apply I2. lia.
Qed.
Print Assumptions C86_bounds_partial.

(** A C program sees each field where the C ABI puts it, if the C layout has no
    padding; sizes and alignments are then C's. *)
Theorem C86_layout_partial : forall call tab id ct t v w m p,
  made tab -> means tab id ct -> nth_error tab id = Some t -> padless ct ->
  fits ct v w -> (calign ct | p) ->
  f_size t = csize ct /\ f_align t = calign ct /\
  exists m' q, ffi_set call tab id p v m = MOk m' q /\ csees m' ct p w.
Proof.
  intros call tab id ct t v w m p Md M N PL F D. pose proof (made_wf _ Md) as W.
  destruct (entry_layout tab W (S id) id ct t (Nat.lt_succ_diag_r id) M N) as [A B].
  split; [exact (B PL)|]. split; [exact A|].
  destruct (set_written call VNil tab W id ct t v w m p M N F) as (m' & E & _ & H).
  assert (X : align p (f_align t) = p).
  { rewrite A, align_up by apply calign_pow.
    apply up_same; [exact (pow2_pos _ (calign_pow ct))|exact D]. }
  exists m', (align p (f_align t) + content ct). split; [exact E|].
  pose proof (proj2 (H m' (fun _ _ => eq_refl)) PL) as R. rewrite X in R. exact R.
Qed.
Print Assumptions C86_layout_partial.

(** Elements of an array made by ffi-new lie inside it and are independent, if
    the size of the type is a multiple of its alignment. *)
Theorem C86_array_partial : forall call junk tab id ct t n i j p vi wi vj wj m,
  made tab -> means tab id ct -> nth_error tab id = Some t ->
  (f_align t | f_size t) -> (f_align t | p) ->
  fits ct vi wi -> fits ct vj wj ->
  (i < n)%nat -> (j < n)%nat -> i <> j ->
  exists bytes ai aj m1 m2 qi qj,
    ffi_new_bytes tab id (Z.of_nat n) = Some bytes /\
    ffi_address_of tab id p i = Some ai /\ ffi_address_of tab id p j = Some aj /\
    ffi_set call tab id ai vi m = MOk m1 qi /\
    ffi_set call tab id aj vj m1 = MOk m2 qj /\
    ffi_get call junk tab id ai m2 = DOk wi m2 qi /\
    ffi_get call junk tab id aj m2 = DOk wj m2 qj /\
    untouched m m2 p bytes.
Proof.
  intros call junk tab id ct t n i j p vi wi vj wj m Md M N Ds Dp Fi Fj Li Lj Ne.
  pose proof (made_wf _ Md) as W.
  destruct (entry_layout tab W (S id) id ct t (Nat.lt_succ_diag_r id) M N) as [A _].
  assert (PA : pow2 (f_align t)) by (rewrite A; apply calign_pow).
  pose proof (content_size_entry call junk tab W id ct t vi wi M N Fi) as CS.
  pose proof (content_le ct) as [C0 _].
  set (sz := f_size t) in *.
  assert (AL : forall k, align (p + Z.of_nat k * sz) (f_align t) = p + Z.of_nat k * sz).
  { intros k. rewrite align_up by exact PA. apply up_same; [exact (pow2_pos _ PA)|].
    apply Z.divide_add_r; [exact Dp|]. apply Z.divide_mul_r. exact Ds. }
  destruct (set_written call junk tab W id ct t vi wi m (p + Z.of_nat i * sz) M N Fi)
    as (m1 & E1 & U1 & H1).
  destruct (set_written call junk tab W id ct t vj wj m1 (p + Z.of_nat j * sz) M N Fj)
    as (m2 & E2 & U2 & H2).
  rewrite AL in E1, U1, H1, E2, U2, H2.
  exists (sz * Z.of_nat n), (p + Z.of_nat i * sz), (p + Z.of_nat j * sz), m1, m2,
    (p + Z.of_nat i * sz + content ct), (p + Z.of_nat j * sz + content ct).
  split; [unfold ffi_new_bytes; rewrite N; reflexivity|].
  split; [unfold ffi_address_of; rewrite N; f_equal; apply address_mul; assumption|].
  split; [unfold ffi_address_of; rewrite N; f_equal; apply address_mul; assumption|].
  split; [exact E1|]. split; [exact E2|].
  assert (SEP : forall x, p + Z.of_nat i * sz <= x < p + Z.of_nat i * sz + content ct ->
                x < p + Z.of_nat j * sz \/ p + Z.of_nat j * sz + content ct <= x).
  { intros x Hx. destruct (Nat.lt_ge_cases i j) as [Q|Q].
    - left. assert (Z.of_nat i * sz + sz <= Z.of_nat j * sz) by nia. lia.
    - right. assert (Z.of_nat j * sz + sz <= Z.of_nat i * sz) by nia. lia. }
  split; [apply H1; intros x Hx; apply U2; apply SEP; exact Hx|].
  split; [apply H2; reflexivity|].
  intros x Hx.
  assert (Bi : 0 <= Z.of_nat i * sz /\ Z.of_nat i * sz + sz <= sz * Z.of_nat n) by nia.
  assert (Bj : 0 <= Z.of_nat j * sz /\ Z.of_nat j * sz + sz <= sz * Z.of_nat n) by nia.
  rewrite (U2 x) by lia. apply U1. lia.
Qed.
Print Assumptions C86_array_partial.

(** ffi-apply writes the arguments inside its buffer ... *)
Theorem C86_arguments_room_partial : forall call tab ids es args m p,
  made tab -> (forall i, In i ids -> solid tab i) -> lookup_all tab ids = Some es ->
  match marshal_args call tab ids args m p [] with
  | AOk m' _ | AErr m' => untouched m m' p (buffer_bytes (args_size es))
  | AWild _ => True
  end.
Proof.
  intros call tab ids es args m p Md S1 LK. pose proof (made_wf _ Md) as W.
  pose proof (args_inside call tab W p m ids es args 0 m p [] _ LK S1 ltac:(lia)
                (untouched_refl m p _) eq_refl) as I.
  assert (G : 0 <= args_size es).
  { apply args_fold_ge. intros x Hx. destruct (lookup_entries _ _ _ _ LK Hx) as (i & Hi & Ni).
    exact (solid_align tab W (S i) i x (Nat.lt_succ_diag_r i) (S1 i Hi) Ni). }
  pose proof (buffer_room (args_size es) G) as R. unfold args_size in *.
  destruct (marshal_args call tab ids args m p []) as [m' at_|m'|m']; [| |exact Logic.I];
    intros a Ha; apply I; lia.
Qed.
Print Assumptions C86_arguments_room_partial.

(** ... and the function called sees each of them at the address it is given. *)
Theorem C86_arguments_partial : forall call tab ids cts l ws tail m p,
  made tab -> means_all tab ids cts -> (forall c, In c cts -> padless c) ->
  fits_all cts l ws ->
  exists m' at_, marshal_args call tab ids (lisp_list l tail) m p [] = AOk m' at_ /\
                 args_seen m' cts at_ ws.
Proof.
  intros call tab ids cts l ws tail m p Md MA PL FA. pose proof (made_wf _ Md) as W.
  destruct (args_fit call VNil tab W ids cts l ws tail m p [] MA FA) as (m' & at_ & E & _ & S1).
  exists m', at_. split; [exact E|exact (S1 PL)].
Qed.
Print Assumptions C86_arguments_partial.

(** Structures have the same id exactly if they have the same fields, however
    many types are made in between. *)
Theorem C86_struct_ids : forall tab ids tab1 i tab2 ids' tab3 j,
  made tab -> ffi_struct ids tab = Some (tab1, i) -> later tab1 tab2 ->
  ffi_struct ids' tab2 = Some (tab3, j) ->
  (i = j <-> ids = ids').
Proof.
  intros tab ids tab1 i tab2 ids' tab3 j Md S1 L S2. pose proof (made_wf _ Md) as W.
  destruct (ffi_struct_entry _ _ _ _ W S1) as (t & N & K).
  destruct (ffi_struct_wf _ _ _ _ W S1) as (W1 & _ & _).
  destruct (later_wf _ _ L W1) as (W2 & e2 & ->).
  destruct (ffi_struct_entry _ _ _ _ W2 S2) as (u & N' & K').
  destruct (ffi_struct_wf _ _ _ _ W2 S2) as (W3 & e3 & ->).
  assert (N1 : nth_error ((tab1 ++ e2) ++ e3) i = Some t).
  { rewrite <- app_assoc. rewrite nth_error_app1 by (apply nth_error_Some; congruence). exact N. }
  split; intros E; subst.
  - rewrite N1 in N'. injection N' as <-. congruence.
  - exact (proj2 W3 i j t u ids' N1 N' K K').
Qed.
Print Assumptions C86_struct_ids.

(** Making types does not change what existing ones do. *)
Theorem C86_stable : forall call junk tab tab' id p v m,
  made tab -> later tab tab' -> (id < length tab)%nat ->
  ffi_set call tab' id p v m = ffi_set call tab id p v m /\
  ffi_get call junk tab' id p m = ffi_get call junk tab id p m.
Proof.
  intros call junk tab tab' id p v m Md L Lt. pose proof (made_wf _ Md) as W.
  destruct (later_wf _ _ L W) as (_ & ext & ->).
  unfold ffi_set, ffi_get, marshal, demarshal. rewrite nth_error_app1 by exact Lt.
  destruct (nth_error tab id) as [t|]; [|split; reflexivity].
  split; [apply marshal_stable; auto|apply demarshal_stable; auto].
Qed.
Print Assumptions C86_stable.

(** The first alias on a type: writing through it writes the converted value. *)
Theorem C86_alias_partial : forall call tab b e pred ci co tab' i v v' p m,
  made tab -> nth_error tab b = Some e ->
  (forall j u x q r s, nth_error tab j = Some u -> f_kind u = KAlias x q r s -> f_obj u <> f_obj e) ->
  ffi_type b pred (Some ci) co tab = Some (tab', i) ->
  call ci v = Some v' ->
  (b < i)%nat /\ (forall u, nth_error tab i <> Some u) /\
  ffi_set call tab' i p v m = ffi_set call tab b p v' m.
Proof.
  intros call tab b e pred ci co tab' i v v' p m Md N FIRST T C. pose proof (made_wf _ Md) as W.
  unfold ffi_type in T. rewrite N in T. injection T as T. unfold alloc_type in T.
  assert (Lb : (b < length tab)%nat) by (apply nth_error_Some; congruence).
  destruct (find_type _ tab 0) as [n|] eqn:F.
  - exfalso. destruct (find_some _ _ _ _ F) as (u & _ & Nu & Tu).
    rewrite Nat.sub_0_r in Nu. unfold types_equal in Tu. cbn [f_kind f_obj] in Tu.
    destruct (f_kind u) as [pr|ids|x q r s] eqn:K; try discriminate.
    pose proof (FIRST n u x q r s Nu K) as D.
    destruct (Nat.eqb (f_obj e) (f_obj u)) eqn:Q; [apply Nat.eqb_eq in Q; congruence|].
    cbn [orb] in Tu. apply andb_prop in Tu. destruct Tu as [Tu _].
    apply andb_prop in Tu. destruct Tu as [Tu _]. apply andb_prop in Tu. destruct Tu as [Tu _].
    apply Nat.eqb_eq in Tu. subst x.
    pose proof (proj1 W n u Nu) as EO. unfold entry_ok in EO. rewrite K in EO.
    destruct EO as (_ & e' & Ne' & _ & _ & Ob). rewrite N in Ne'. injection Ne' as <-.
    exact (D Ob).
  - injection T as <- <-. split; [exact Lb|]. split.
    { intros u Hu. assert (length tab < length tab)%nat by (apply nth_error_Some; congruence). lia. }
    unfold ffi_set. rewrite nth_error_app2 by lia. rewrite Nat.sub_diag, N. cbn [nth_error f_align].
    unfold marshal. remember (S b) as kb eqn:Kb. cbn [marshal_n].
    rewrite nth_error_app2 by lia. rewrite Nat.sub_diag. cbn [nth_error f_kind conv].
    rewrite C. subst kb. apply marshal_stable; [exact W|lia|exact Lb|exact Lb].
Qed.
Print Assumptions C86_alias_partial.

(** ** Cases *)

Definition no_call : Z -> value -> option value := fun _ _ => None.
Definition zeros : mem := fun _ => 0.
(* ids: 1 u8, 2 s8, 3 u16, 5 u32, 6 s32, 7 u64, 8 s64, 10 double, 12 pointer *)
Definition tab_of (o : option (table * nat)) : table :=
  match o with Some (t, _) => t | None => [] end.
Definition pair_tab : table := tab_of (ffi_struct [3; 2; 1; 6]%nat init_table).
Definition nest_tab : table := tab_of (ffi_struct [13; 7; 13; 12]%nat pair_tab).
Definition pair_ct : ctype := CStruct [CPrim PU16; CPrim PS8; CPrim PU8; CPrim PS32].
Definition nest_ct : ctype := CStruct [pair_ct; CPrim PU64; pair_ct; CPrim PPointer].

Lemma made_pair : made pair_tab.
Proof. exact (later_struct init_table init_table pair_tab [3; 2; 1; 6]%nat 13%nat (later_same _) eq_refl). Qed.
Lemma made_nest : made nest_tab.
Proof. exact (later_struct init_table pair_tab nest_tab [13; 7; 13; 12]%nat 14%nat made_pair eq_refl). Qed.

Ltac prim_means := eapply means_prim; [reflexivity|reflexivity].
Lemma means_pair tab : nth_error tab 1 = nth_error init_table 1 ->
  nth_error tab 2 = nth_error init_table 2 -> nth_error tab 3 = nth_error init_table 3 ->
  nth_error tab 6 = nth_error init_table 6 -> nth_error tab 13 = nth_error pair_tab 13 ->
  means tab 13 pair_ct.
Proof.
  intros E1 E2 E3 E6 E13. eapply means_struct; [rewrite E13; reflexivity|reflexivity|discriminate|].
  constructor; [eapply means_prim; [rewrite E3; reflexivity|reflexivity]|].
  constructor; [eapply means_prim; [rewrite E2; reflexivity|reflexivity]|].
  constructor; [eapply means_prim; [rewrite E1; reflexivity|reflexivity]|].
  constructor; [eapply means_prim; [rewrite E6; reflexivity|reflexivity]|]. constructor.
Qed.
Example C86_nested_means : means nest_tab 14 nest_ct.
Proof.
  assert (P : means nest_tab 13 pair_ct) by (apply means_pair; reflexivity).
  eapply means_struct; [reflexivity|reflexivity|discriminate|].
  constructor; [exact P|]. constructor; [prim_means|]. constructor; [exact P|].
  constructor; [prim_means|]. constructor.
Qed.
Example C86_nested_padless : padless nest_ct.
Proof. reflexivity. Qed.

Definition pair_val (a b c d : Z) : value := VVec [VInt a; VInt b; VInt c; VInt d].
Lemma fits_pair a b c d : range PU16 a -> range PS8 b -> range PU8 c -> range PS32 d ->
  fits pair_ct (pair_val a b c d) (pair_val a b c d).
Proof.
  intros. apply (fits_vec _ [VInt a; VInt b; VInt c; VInt d] []).
  repeat (constructor; [constructor; assumption|]). constructor.
Qed.
(** A list with a vector, a number, a list and a string. *)
Example C86_nested_fits : fits nest_ct
  (lisp_list [pair_val 65535 (-128) 255 (-5); VInt (2 ^ 62);
              lisp_list [VInt 1; VInt 2; VInt 3; VInt 4] VNil; VStr 4096] VNil)
  (VVec [pair_val 65535 (-128) 255 (-5); VInt (2 ^ 62); pair_val 1 2 3 4; VInt 4096]).
Proof.
  apply fits_list.
  constructor; [apply fits_pair; cbn; lia|].
  constructor; [constructor; cbn; lia|].
  constructor.
  { apply (fits_list _ [VInt 1; VInt 2; VInt 3; VInt 4] VNil).
    repeat (constructor; [constructor; cbn; lia|]). constructor. }
  constructor; [constructor; lia|]. constructor.
Qed.
Example C86_nested_trip : exists m' q,
  ffi_set no_call nest_tab 14 160
    (lisp_list [pair_val 65535 (-128) 255 (-5); VInt (2 ^ 62);
                lisp_list [VInt 1; VInt 2; VInt 3; VInt 4] VNil; VStr 4096] VNil) zeros = MOk m' q /\
  ffi_get no_call VNil nest_tab 14 160 m' =
    DOk (VVec [pair_val 65535 (-128) 255 (-5); VInt (2 ^ 62); pair_val 1 2 3 4; VInt 4096]) m' q.
Proof.
  exact (C86_round_trip_partial no_call VNil _ _ _ _ _ zeros 160
           made_nest C86_nested_means C86_nested_fits).
Qed.
Example C86_nested_array : exists t, nth_error nest_tab 14 = Some t /\
  (f_align t | f_size t) /\ f_size t = 32.
Proof. eexists. split; [reflexivity|]. split; [exists 4; reflexivity|reflexivity]. Qed.

Definition twice : Z -> value -> option value := fun f v =>
  match v with VInt z => Some (VInt (if f =? 1 then 2 * z else z + 100)) | _ => None end.
Example C86_alias_case : exists tab' i,
  ffi_type 6 None (Some 1) (Some 2) init_table = Some (tab', i) /\
  ffi_set twice tab' i 16 (VInt 21) zeros = ffi_set twice init_table 6 16 (VInt 42) zeros.
Proof. eexists. eexists. split; [reflexivity|]. reflexivity. Qed.

(** ** Where it fails *)

Ltac bad :=
  match goal with
  | H : csees _ _ _ _ |- _ => inversion H; subst; clear H
  | H : csees_from _ _ _ _ _ |- _ => inversion H; subst; clear H
  end.

(** A structure whose C layout has padding: fields are written one after the
    other without it, and C finds the second field elsewhere. *)
Theorem C86_padding_refuted : exists tab id ct v w p m' q,
  made tab /\ means tab id ct /\ fits ct v w /\ (calign ct | p) /\
  ffi_set no_call tab id p v zeros = MOk m' q /\ ~ csees m' ct p w.
Proof.
  exists (tab_of (ffi_struct [1; 5]%nat init_table)), 13%nat, (CStruct [CPrim PU8; CPrim PU32]),
    (VVec [VInt 1; VInt 2]), (VVec [VInt 1; VInt 2]), 16.
  eexists. eexists.
  split; [exact (later_struct init_table init_table _ [1; 5]%nat 13%nat (later_same _) eq_refl)|].
  split.
  { eapply means_struct; [reflexivity|reflexivity|discriminate|].
    constructor; [prim_means|]. constructor; [prim_means|]. constructor. }
  split.
  { apply (fits_vec _ [VInt 1; VInt 2] []).
    repeat (constructor; [constructor; cbn; lia|]). constructor. }
  split; [exists 4; reflexivity|]. split; [reflexivity|].
  intros H. repeat bad.
  match goal with B : bytes_at _ (16 + up _ _) (prim_bytes PU32) 2 |- _ =>
    specialize (B 0 ltac:(cbn; lia)); vm_compute in B; discriminate end.
Qed.
Print Assumptions C86_padding_refuted.

(** The size of a structure is not rounded up to its alignment: the second
    element of an array of two is written beyond the memory of ffi-new. *)
Theorem C86_overflow_refuted : exists tab id ct v w p n i bytes a m' q x,
  made tab /\ means tab id ct /\ fits ct v w /\ (16 | p) /\
  ffi_new_bytes tab id n = Some bytes /\ Z.of_nat i < n /\
  ffi_address_of tab id p i = Some a /\
  ffi_set no_call tab id a v zeros = MOk m' q /\
  p + bytes <= x /\ m' x <> zeros x.
Proof.
  exists (tab_of (ffi_struct [5; 1]%nat init_table)), 13%nat, (CStruct [CPrim PU32; CPrim PU8]),
    (VVec [VInt 1; VInt 2]), (VVec [VInt 1; VInt 2]), 16, 2, 1%nat, 10, 21.
  eexists. eexists. exists 28.
  split; [exact (later_struct init_table init_table _ [5; 1]%nat 13%nat (later_same _) eq_refl)|].
  split.
  { eapply means_struct; [reflexivity|reflexivity|discriminate|].
    constructor; [prim_means|]. constructor; [prim_means|]. constructor. }
  split.
  { apply (fits_vec _ [VInt 1; VInt 2] []).
    repeat (constructor; [constructor; cbn; lia|]). constructor. }
  split; [exists 1; reflexivity|]. split; [reflexivity|]. split; [cbn; lia|].
  split; [reflexivity|]. split; [reflexivity|]. split; [lia|].
  vm_compute. discriminate.
Qed.
Print Assumptions C86_overflow_refuted.

(** An empty structure as a field sets the size back to nothing (its alignment
    is 0): ffi-set! writes beyond the type. *)
Theorem C86_empty_refuted : exists tab id t v p m' q x,
  made tab /\ nth_error tab id = Some t /\ (16 | p) /\
  ffi_set no_call tab id p v zeros = MOk m' q /\
  p + f_size t <= x /\ m' x <> zeros x.
Proof.
  exists (tab_of (ffi_struct [5; 13; 1]%nat (tab_of (ffi_struct [] init_table)))), 14%nat.
  eexists. exists (VVec [VInt 1; VVec []; VInt 2]), 16. eexists. eexists. exists 20.
  split.
  { eapply (later_struct init_table (tab_of (ffi_struct [] init_table)) _ [5; 13; 1]%nat 14%nat); [|reflexivity].
    exact (later_struct init_table init_table _ [] 13%nat (later_same _) eq_refl). }
  split; [reflexivity|]. split; [exists 1; reflexivity|]. split; [reflexivity|].
  split; [vm_compute; discriminate|]. vm_compute. discriminate.
Qed.
Print Assumptions C86_empty_refuted.

(** Unsigned 64-bit numbers from 2^63 come back negative. *)
Theorem C86_uint64_refuted : exists z m' q v,
  0 <= z < 2 ^ 64 /\
  ffi_set no_call init_table 7 16 (VInt z) zeros = MOk m' q /\
  ffi_get no_call VNil init_table 7 16 m' = DOk v m' q /\
  v = VInt (z - 2 ^ 64).
Proof.
  exists (2 ^ 63). eexists. eexists. eexists.
  split; [lia|]. split; [reflexivity|]. split; [vm_compute; reflexivity|]. reflexivity.
Qed.
Print Assumptions C86_uint64_refuted.

(** Numbers out of range are not refused but cut. *)
Theorem C86_range_refuted : exists z m' q,
  ffi_set no_call init_table 1 16 (VInt z) zeros = MOk m' q /\
  ffi_get no_call VNil init_table 1 16 m' = DOk (VInt (z - 256)) m' q.
Proof.
  exists 300. eexists. eexists. split; [reflexivity|]. reflexivity.
Qed.
Print Assumptions C86_range_refuted.

(** Two aliases of one type, such as two enumerations, are taken for the same:
    the second gets the id of the first, and its conversions. *)
Theorem C86_alias_same_refuted : exists call b i1 o1 i2 o2 tab1 tab2 i j v v' m' q,
  ffi_type b None (Some i1) (Some o1) init_table = Some (tab1, i) /\
  ffi_type b None (Some i2) (Some o2) tab1 = Some (tab2, j) /\
  i1 <> i2 /\ i = j /\
  call i2 v = Some v' /\
  ffi_set call tab2 j 16 v zeros = MOk m' q /\
  (forall m'' q', ffi_set call tab2 b 16 v' zeros = MOk m'' q' -> m' 16 <> m'' 16).
Proof.
  exists twice, 6%nat, 1, 2, 3, 4. eexists. eexists. eexists. eexists.
  exists (VInt 21). eexists. eexists. eexists.
  split; [reflexivity|]. split; [reflexivity|]. split; [lia|]. split; [reflexivity|].
  split; [reflexivity|]. split; [reflexivity|].
  intros m'' q' H. vm_compute in H. injection H as <- <-. vm_compute. discriminate.
Qed.
Print Assumptions C86_alias_same_refuted.

(** Reading through an alias does not read: it writes whatever was in the place
    for the result into the memory, and returns that. *)
Theorem C86_alias_get_refuted : exists call tab i m,
  made tab /\ (forall f v, call f v = Some v) /\ m 16 = 5 /\
  forall z, range PU8 z -> exists m' q,
    ffi_get call (VInt z) tab i 16 m = DOk (VInt z) m' q /\ m' 16 = z.
Proof.
  exists (fun _ v => Some v), (tab_of (ffi_type 1 None (Some 1) (Some 2) init_table)), 13%nat, (fun _ => 5).
  split; [exact (later_type init_table init_table _ 1%nat None (Some 1) (Some 2) 13%nat (later_same _) eq_refl)|].
  split; [reflexivity|]. split; [reflexivity|].
  intros z R. cbn [range] in R.
  pose proof (get_long_small z ltac:(lia)) as G.
  eexists. eexists. split.
  - unfold ffi_get. cbn [nth_error tab_of ffi_type init_table].
    unfold demarshal. cbn -[get_long_int store Z.pow Z.mul align]. rewrite G. cbn [put_int]. reflexivity.
  - change (align 16 (f_align _)) with 16. cbn [store]. unfold upd.
    cbn -[Z.modulo]. apply Z.mod_small. lia.
Qed.
Print Assumptions C86_alias_get_refuted.

(** An alias made without conversions cannot be used: nil is called. *)
Theorem C86_nil_conversion_refuted : exists tab i,
  ffi_type 1 None None None init_table = Some (tab, i) /\
  forall call v p m, ffi_set call tab i p v m = MErr m.
Proof. eexists. eexists. split; [reflexivity|]. reflexivity. Qed.
Print Assumptions C86_nil_conversion_refuted.

(** A vector shorter than the structure is read beyond its end. *)
Theorem C86_short_vector_refuted : exists tab id ct l m',
  made tab /\ means tab id ct /\
  ffi_set no_call tab id 16 (VVec l) zeros = MWild m'.
Proof.
  exists pair_tab, 13%nat, pair_ct, [VInt 1]. eexists.
  split; [exact made_pair|]. split; [apply means_pair; reflexivity|]. reflexivity.
Qed.
Print Assumptions C86_short_vector_refuted.
