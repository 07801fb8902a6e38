(** Proofs for Cgi_Props. *)
From Coq Require Import ZArith List Bool Lia ZifyBool.
Import ListNotations.
From Verif Require Import Regexp_Model Regexp_Spec Regexp_Match Regexp_Search Regexp_Props Find_Model Find_Spec Find_Replace Find_Url.
From Verif Require Import Cgi_Model Cgi_Spec.
Open Scope Z_scope.

(** * Decoding *)
Definition pct : regex := Alt1 (Piece (Lit [37]) One (Piece Any One (Piece Any One Regexp_Spec.Nil))).
Lemma pct_show : show pct = percent_re.
Proof. reflexivity. Qed.
Lemma pct_fits t : Forall char t -> fits pct t false.
Proof.
  intros C. unfold fits. split; [exact C | ]. split; [ | split; [ | split; [ | split; [ | split]]]].
  - cbn. repeat split; try lia; auto; try discriminate.
    all: try (constructor; [ | constructor]; split; [unfold char; lia | ]; intros I; unfold special in I; cbn in I; lia).
  - cbn. repeat split; auto.
  - discriminate.
  - cbn. lia.
  - reflexivity.
  - cbn. lia.
Qed.
Definition is_some {A} (o : option A) : bool := match o with Some _ => true | None => false end.
Lemma pct_ways t b n k : ways t false b pct n k =
  if (match char_at t k with Some x => 37 =? x | None => false end) && is_some (char_at t (k + 1)) && is_some (char_at t (k + 2)) then [(k + 3, [])] else [].
Proof.
  change (ways t false b pct n k) with
    (and_then (if match char_at t k with Some x => (37 =? x) && true | None => false end then [(k + 1, [])] else [])
       (fun i => and_then (one t (fun _ => true) i) (fun i => and_then (one t (fun _ => true) i) (fun i => [(i, [])])))).
  destruct (char_at t k) as [x|]; [|reflexivity]. rewrite andb_true_r. destruct (37 =? x); [|reflexivity]. rewrite then_one. cbn [andb].
  unfold one at 1. destruct (char_at t (k + 1)) as [y|]; [|reflexivity]. rewrite then_one, then_units. cbn [is_some andb]. unfold one.
  replace (k + 1 + 1) with (k + 2) by lia. destruct (char_at t (k + 2)); [|reflexivity]. cbn [is_some]. replace (k + 2 + 1) with (k + 3) by lia. reflexivity.
Qed.

Definition byte (a b : Z) : Z := (hexdigit a * 16 + hexdigit b) mod 256.
Fixpoint decode (s : list Z) : list Z :=
  match s with
  | [] => []
  | c :: s' => if c =? 37 then match s' with a :: b :: r => byte a b :: decode r | _ => s end else c :: decode s'
  end.
Lemma decode_plain p s : ~ In 37 p -> decode (p ++ s) = p ++ decode s.
Proof.
  induction p as [|c p IH]; intros N; [reflexivity|]. cbn [app decode]. destruct (Z.eqb_spec c 37) as [->|]; [destruct N; left; reflexivity|].
  rewrite IH; [reflexivity|]. intros I. apply N. right. exact I.
Qed.
Lemma decode_same p : ~ In 37 p -> decode p = p.
Proof. intros N. rewrite <- (app_nil_r p) at 1. rewrite decode_plain by exact N. cbn. apply app_nil_r. Qed.

Lemma sub_mid pre p s : substring (pre ++ p ++ s) (Z.of_nat (length pre)) (Z.of_nat (length (pre ++ p))) = Ok p.
Proof.
  unfold substring. replace (_ || _) with false by (rewrite !app_length; lia). f_equal. rewrite Nat2Z.id, app_length.
  replace (Z.to_nat (Z.of_nat (length pre + length p) - Z.of_nat (length pre))) with (length p) by lia.
  rewrite skipn_app, skipn_all, Nat.sub_diag. cbn [skipn app]. rewrite firstn_app, firstn_all, Nat.sub_diag. cbn. apply app_nil_r.
Qed.
Lemma char_at_beyond t k : Z.of_nat (length t) <= k -> char_at t k = None.
Proof. intros K. unfold char_at. destruct (k <? 0); [reflexivity|]. apply nth_error_None. lia. Qed.

Lemma pct_here t pre p a b r : t = pre ++ p ++ 37 :: a :: b :: r -> ~ In 37 p ->
  first_match t pct (Z.of_nat (length pre)) (Z.of_nat (length (pre ++ p))) (Z.of_nat (length (pre ++ p ++ [37; a; b])), []).
Proof.
  intros E N. split; [subst t; rewrite !app_length; cbn [length]; lia|]. split.
  - intros k K. rewrite pct_ways. rewrite app_length in K. destruct (char_at_in pre p (37 :: a :: b :: r) k ltac:(lia)) as (x & I & X). rewrite E, X.
    destruct (Z.eqb_spec 37 x) as [<-|]; [contradiction|reflexivity].
  - rewrite pct_ways. set (k := Z.of_nat (length (pre ++ p))).
    assert (K0 : char_at t k = Some 37) by (rewrite E, app_assoc; apply char_at_app2; reflexivity).
    assert (K1 : char_at t (k + 1) = Some a).
    { rewrite E. replace (pre ++ p ++ 37 :: a :: b :: r) with ((pre ++ p ++ [37]) ++ a :: b :: r) by (rewrite <- !app_assoc; reflexivity).
      apply char_at_app2. unfold k. rewrite !app_length. cbn [length]. lia. }
    assert (K2 : char_at t (k + 2) = Some b).
    { rewrite E. replace (pre ++ p ++ 37 :: a :: b :: r) with ((pre ++ p ++ [37; a]) ++ b :: r) by (rewrite <- !app_assoc; reflexivity).
      apply char_at_app2. unfold k. rewrite !app_length. cbn [length]. lia. }
    rewrite K0, K1, K2. cbn. unfold k. do 3 f_equal. rewrite !app_length. cbn [length]. lia.
Qed.
Lemma pct_nowhere t pre p q : t = pre ++ p ++ q -> ~ In 37 p -> (length q < 3)%nat -> no_match t pct (Z.of_nat (length pre)).
Proof.
  intros E N Q k K. rewrite pct_ways. destruct (Z_lt_ge_dec k (Z.of_nat (length (pre ++ p)))) as [L|L].
  - rewrite app_length in L. destruct (char_at_in pre p q k ltac:(lia)) as (x & I & X). rewrite E, X. destruct (Z.eqb_spec 37 x) as [<-|]; [contradiction|reflexivity].
  - rewrite (char_at_beyond t (k + 2)); [|rewrite E; rewrite !app_length in *; lia]. cbn [is_some]. rewrite andb_false_r. reflexivity.
Qed.
Lemma aref_ok t k x : char_at t k = Some x -> aref t k = Ok x.
Proof. intros E. destruct (char_at_nth _ _ _ E) as [B <-]. unfold aref. replace (_ || _) with false by lia. reflexivity. Qed.

Section Unquote.
  Variable beyond : Z -> Z.
  Variable f : nat.
  Variable t : list Z.
  Hypothesis SE : forall point, 0 <= point <= Z.of_nat (length t) -> searched beyond pct t f point.

  Lemma unquote_steps : forall n pre s frags m, (length s < n)%nat -> t = pre ++ s -> (pre = [] -> frags = []) ->
    exists m', unquote_loop beyond f n t (Z.of_nat (length pre)) frags m = Ok (concat (rev frags) ++ decode s, m') /\ (~ In 37 s -> m' = m).
  Proof.
    induction n as [|n IH]; intros pre s frags m L E Z0; [lia|]. cbn [unquote_loop].
    assert (B : 0 <= Z.of_nat (length pre) <= Z.of_nat (length t)) by (rewrite E, app_length; lia).
    assert (NO : decode s = s -> no_match t pct (Z.of_nat (length pre)) ->
      exists m', (let '(r, m0) := matched (string_match beyond f percent_re t (Z.of_nat (length pre)) false) t m in
        let* found := r in if found then
          let* i := the_pos (match_start m0 0) in
          let* before := substring t (Z.of_nat (length pre)) i in
          let* point := the_pos (match_end m0 0) in
          let* a := aref t (point - 2) in
          let* b := aref t (point - 1) in
          unquote_loop beyond f n t point ([(hexdigit a * 16 + hexdigit b) mod 256] :: before :: frags) m0
        else if Z.of_nat (length pre) =? 0 then Ok (t, m0)
        else let* rest := substring t (Z.of_nat (length pre)) (Z.of_nat (length t)) in Ok (concat (rev (rest :: frags)), m0)) = Ok (concat (rev frags) ++ decode s, m') /\ (~ In 37 s -> m' = m)).
    { intros D NM. destruct (SE _ B) as [(k & j & ev & F & _)|[_ E2]]; [destruct (first_no_match _ _ _ _ _ F NM)|].
      rewrite pct_show in E2. rewrite E2. cbn [matched bind]. exists m. split; [|reflexivity]. rewrite D.
      destruct (Z.eqb_spec (Z.of_nat (length pre)) 0) as [P|P].
      - destruct pre; [|cbn in P; lia]. rewrite (Z0 eq_refl). cbn. rewrite E. reflexivity.
      - assert (SB : substring t (Z.of_nat (length pre)) (Z.of_nat (length t)) = Ok s).
        { rewrite E. assert (X := sub_mid pre s []). rewrite !app_nil_r in X. exact X. }
        rewrite SB. cbn [bind rev]. rewrite concat_app. cbn [concat]. rewrite app_nil_r. reflexivity. }
    destruct (first_where (fun c => negb (c =? 37)) s) as [U|(p & c & s3 & Es & U & Uc)].
    - assert (N37 : ~ In 37 s) by (intros I; rewrite Forall_forall in U; specialize (U _ I); discriminate).
      apply NO; [apply decode_same; exact N37|]. apply (pct_nowhere t pre s []); [rewrite app_nil_r; exact E|exact N37|cbn; lia].
    - assert (N37 : ~ In 37 p) by (intros I; rewrite Forall_forall in U; specialize (U _ I); discriminate).
      apply negb_false_iff, Z.eqb_eq in Uc. subst c. destruct s3 as [|a [|b r]].
      + apply NO; [rewrite Es, decode_plain by exact N37; reflexivity|]. apply (pct_nowhere t pre p [37]); [rewrite E, Es; reflexivity|exact N37|cbn; lia].
      + apply NO; [rewrite Es, decode_plain by exact N37; reflexivity|]. apply (pct_nowhere t pre p [37; a]); [rewrite E, Es; reflexivity|exact N37|cbn; lia].
      + clear NO. assert (E' : t = pre ++ p ++ 37 :: a :: b :: r) by (rewrite E, Es; reflexivity). assert (FM := pct_here t pre p a b r E' N37).
        destruct (SE _ B) as [(k & j & ev & F & _ & _ & E2)|[NM _]]; [|destruct (first_no_match _ _ _ _ _ FM NM)].
        destruct (first_match_fun _ _ _ _ _ _ _ FM F) as [<- Ej]. injection Ej as <- <-.
        rewrite pct_show in E2. rewrite E2. cbn [matched bind]. unfold match_start, match_end, match_pos. cbn -[unquote_loop substring aref length Z.of_nat Z.sub app hexdigit].
        assert (SB : substring t (Z.of_nat (length pre)) (Z.of_nat (length (pre ++ p))) = Ok p) by (rewrite E'; apply sub_mid).
        rewrite SB. cbn [bind]. set (j := Z.of_nat (length (pre ++ p ++ [37; a; b]))).
        assert (K1 : char_at t (j - 2) = Some a).
        { rewrite E'. replace (pre ++ p ++ 37 :: a :: b :: r) with ((pre ++ p ++ [37]) ++ a :: b :: r) by (rewrite <- !app_assoc; reflexivity).
          apply char_at_app2. unfold j. rewrite !app_length. cbn [length]. lia. }
        assert (K2 : char_at t (j - 1) = Some b).
        { rewrite E'. replace (pre ++ p ++ 37 :: a :: b :: r) with ((pre ++ p ++ [37; a]) ++ b :: r) by (rewrite <- !app_assoc; reflexivity).
          apply char_at_app2. unfold j. rewrite !app_length. cbn [length]. lia. }
        rewrite (aref_ok _ _ _ K1), (aref_ok _ _ _ K2). cbn [bind].
        assert (L2 : (length r < n)%nat) by (rewrite Es, app_length in L; cbn [length] in L; lia).
        assert (E3 : t = (pre ++ p ++ [37; a; b]) ++ r) by (rewrite E', <- !app_assoc; reflexivity).
        destruct (IH (pre ++ p ++ [37; a; b]) r ([(hexdigit a * 16 + hexdigit b) mod 256] :: p :: frags)
          (Some (mkmd t (match_starts (Z.of_nat (length (pre ++ p))) []) (match_ends j []))) L2 E3) as (m' & R & _).
        { intros X. destruct pre; [destruct p|]; discriminate. }
        exists m'. split.
        * etransitivity; [exact R|]. f_equal. f_equal. cbn [rev]. rewrite !concat_app. cbn [concat]. rewrite !app_nil_r, Es, decode_plain by exact N37.
          cbn [decode]. change (37 =? 37) with true. cbn iota. rewrite <- !app_assoc. reflexivity.
        * intros N. destruct N. rewrite Es. apply in_or_app. right. left. reflexivity.
  Qed.
End Unquote.

Definition unplus (c : Z) : Z := if c =? 43 then 32 else c.
Lemma translate_plus s : Forall char s -> translate plus_map s = map unplus s.
Proof.
  intros H. unfold translate. apply map_ext_in. intros c I. rewrite Forall_forall in H. specialize (H c I). unfold char in H. unfold unplus.
  change (Z.of_nat (length plus_map)) with 44. destruct (Z.ltb_spec c 44); [|destruct (Z.eqb_spec c 43); [lia|reflexivity]].
  assert (X : In c (map Z.of_nat (seq 0 44))) by (apply in_map_iff; exists (Z.to_nat c); split; [lia|apply in_seq; lia]).
  revert X. clear. intros X. cbn [seq map] in X. repeat (destruct X as [<-|X]; [reflexivity|]). destruct X.
Qed.
Lemma unplus_chars s : Forall char s -> Forall char (map unplus s).
Proof. intros H. apply Forall_map. eapply Forall_impl; [|exact H]. intros c C. unfold unplus, char in *. destruct (c =? 43); lia. Qed.
Lemma unquote_ok beyond s : Forall char s -> exists f0, forall f m, (f0 <= f)%nat ->
  exists m', unquote beyond f s m = Ok (decode (map unplus s), m') /\ (~ In 37 s -> m' = m).
Proof.
  intros C. destruct (searches beyond pct (map unplus s) (pct_fits _ (unplus_chars s C))) as (f0 & SE). exists f0. intros f m F.
  unfold unquote. rewrite (translate_plus s C).
  destruct (unquote_steps beyond f (map unplus s) (fun p B => SE p f B F) (S (length (map unplus s))) [] (map unplus s) [] m) as (m' & R & K); [lia|reflexivity|reflexivity|].
  exists m'. split; [exact R|]. intros N. apply K. intros I. apply N. apply in_map_iff in I as (c & E & I). unfold unplus in E. destruct (Z.eqb_spec c 43); [lia|]. subst c. exact I.
Qed.

(** * What is encoded *)
Lemma digit_hex a d : digit a d -> hexdigit a = d /\ char a /\ a <> 43 /\ a <> 37 /\ a <> 38 /\ a <> 61 /\ 0 <= d <= 15.
Proof.
  intros [d' H|d' H|d' H]; unfold hexdigit, toupper, islower, char.
  - replace ((48 <=? 48 + d') && (48 + d' <=? 57)) with true by lia. lia.
  - replace ((48 <=? 65 + (d' - 10)) && (65 + (d' - 10) <=? 57)) with false by lia. replace ((97 <=? 65 + (d' - 10)) && (65 + (d' - 10) <=? 122)) with false by lia. lia.
  - replace ((48 <=? 97 + (d' - 10)) && (97 + (d' - 10) <=? 57)) with false by lia. replace ((97 <=? 97 + (d' - 10)) && (97 + (d' - 10) <=? 122)) with true by lia. lia.
Qed.
Lemma encoded_decode hex (raw : Z -> Prop) s e : (forall c, raw c -> char c /\ c <> 43 /\ c <> 37) -> encoded hex raw s e -> decode (map unplus e) = s /\ Forall char e.
Proof.
  intros R. induction 1 as [|c s e Rc H [IH C]|s e H [IH C]|c1 c2 a b s e X Da Db H [IH C]].
  - split; [reflexivity|constructor].
  - destruct (R c Rc) as (Cc & N1 & N2). split; [|constructor; assumption]. assert (U : unplus c = c) by (unfold unplus; destruct (Z.eqb_spec c 43); [contradiction|reflexivity]). cbn [map decode]. rewrite U.
    destruct (Z.eqb_spec c 37); [contradiction|]. rewrite IH. reflexivity.
  - split; [|constructor; [unfold char; lia|assumption]]. cbn [map decode]. change (unplus 43) with 32. cbn. rewrite IH. reflexivity.
  - destruct (digit_hex _ _ Da) as (Ha & Ca & A1 & A2 & A3 & A4 & A5). destruct (digit_hex _ _ Db) as (Hb & Cb & B1 & B2 & B3 & B4 & B5).
    split; [|repeat (constructor; [assumption || (unfold char; lia)|]); assumption].
    change (map unplus (37 :: a :: b :: e)) with (37 :: unplus a :: unplus b :: map unplus e). cbn [decode]. change (37 =? 37) with true. cbn iota. rewrite IH. f_equal.
    unfold unplus. destruct (Z.eqb_spec a 43); [contradiction|]. destruct (Z.eqb_spec b 43); [contradiction|]. unfold byte. rewrite Ha, Hb. rewrite Z.mod_small; lia.
Qed.
Lemma encoded_avoids hex (raw : Z -> Prop) x s e : (x <> 43) -> (x = 37 -> hex = false) -> ~ raw x -> (forall a d, digit a d -> a <> x) -> encoded hex raw s e -> ~ In x e.
Proof.
  intros P Q R D. induction 1 as [|c s e Rc H IH|s e H IH|c1 c2 a b s e X Da Db H IH]; cbn; [tauto| | |].
  - intros [<-|I]; auto.
  - intros [<-|I]; auto.
  - intros [<-|[<-|[<-|I]]]; auto; [rewrite (Q eq_refl) in X; discriminate|exact (D _ _ Da eq_refl)|exact (D _ _ Db eq_refl)].
Qed.
Lemma encoded_empty hex raw s : encoded hex raw s [] -> s = [].
Proof. intros H. inversion H. reflexivity. Qed.

(** * One parameter *)
Definition prm : regex :=
  Alt1 (Piece (Grp (Alt1 (Piece (Cls true [CChr 61]) (Plus Greedy) Regexp_Spec.Nil))) One
       (Piece (Lit [61]) One
       (Piece (Grp (Alt1 (Piece (Cls true [CChr 38]) (Star Greedy) Regexp_Spec.Nil))) One
       (Piece (Grp (Alt (Piece (Lit [38]) One Regexp_Spec.Nil) (Alt1 (Piece Eol One Regexp_Spec.Nil)))) One Regexp_Spec.Nil)))).
Lemma prm_show : show prm = param_re.
Proof. reflexivity. Qed.
Lemma prm_fits t : Forall char t -> fits prm t false.
Proof.
  intros C. unfold fits. split; [exact C | ]. split; [ | split; [ | split; [ | split; [ | split]]]].
  - cbn. repeat split; try lia; auto; try discriminate.
    all: try (constructor; [ | constructor]; split; [unfold char; lia | ]; intros I; unfold special in I; cbn in I; lia).
  - cbn. repeat split; auto.
  - discriminate.
  - cbn. lia.
  - reflexivity.
  - cbn. lia.
Qed.
Lemma then_hd l K j e w : hd_error l = Some (j, e) -> hd_error (K j) = Some w -> hd_error (and_then l K) = Some (fst w, e ++ snd w).
Proof.
  destruct l as [|x l]; [discriminate|]. cbn [hd_error]. intros [= ->] H. rewrite then_cons. destruct (K j) as [|y r]; [discriminate|]. injection H as ->. reflexivity.
Qed.
Lemma map_hd {A B} (g : A -> B) l x : hd_error l = Some x -> hd_error (map g l) = Some (g x).
Proof. destruct l; [discriminate|]. intros [= ->]. reflexivity. Qed.
Lemma run_hd t g : forall run pre rest n, t = pre ++ run ++ rest -> Forall (fun c => g c = true) run -> (rest = [] \/ exists c r, rest = c :: r /\ g c = false) -> (length run < n)%nat ->
  hd_error (many Greedy (one t g) n (Z.of_nat (length pre))) = Some (Z.of_nat (length (pre ++ run)), []).
Proof.
  induction run as [|c run IH]; intros pre rest n E G R L; (destruct n as [|n]; [lia|]); cbn [many].
  - rewrite app_nil_r. cbn [app] in E. assert (Z0 : one t g (Z.of_nat (length pre)) = []).
    { unfold one. destruct R as [->|(c & r & -> & Gc)].
      - rewrite app_nil_r in E. subst t. rewrite char_at_none. reflexivity.
      - rewrite E, char_at_app, Gc. reflexivity. }
    rewrite Z0. reflexivity.
  - apply Forall_cons_iff in G as [Gc G']. assert (Z0 : one t g (Z.of_nat (length pre)) = [(Z.of_nat (length pre) + 1, [])]).
    { unfold one. rewrite E. cbn [app]. rewrite char_at_app, Gc. reflexivity. }
    rewrite Z0, then_one. replace (Z.of_nat (length pre) + 1) with (Z.of_nat (length (pre ++ [c]))) by (rewrite app_length; cbn; lia).
    assert (X := IH (pre ++ [c]) rest n ltac:(rewrite E, <- app_assoc; reflexivity) G' R ltac:(cbn [length] in L; lia)).
    destruct (many Greedy (one t g) n (Z.of_nat (length (pre ++ [c])))) as [|y l]; [discriminate|]. injection X as ->. cbn. rewrite <- app_assoc. reflexivity.
Qed.

Lemma prm_here t pre c a v rest b : t = pre ++ (c :: a) ++ 61 :: v ++ rest -> ~ In 61 (c :: a) -> ~ In 38 v -> (rest = [] \/ exists r, rest = 38 :: r) ->
  let i := Z.of_nat (length pre) in
  let j := Z.of_nat (length (pre ++ c :: a)) in
  let k := Z.of_nat (length (pre ++ (c :: a) ++ 61 :: v)) in
  let e := Z.of_nat (length (pre ++ (c :: a) ++ 61 :: v ++ firstn 1 rest)) in
  exists ws, ways t false b prm 1 i = (e, [Opened 1 i; Closed 1 j; Opened 2 (j + 1); Closed 2 k; Opened 3 k; Closed 3 e]) :: ws.
Proof.
  intros E NA NV R i j k e.
  set (g := fun x => xorb true (existsb (in_item x) [CChr 61])). set (h := fun x => xorb true (existsb (in_item x) [CChr 38])).
  assert (GA : Forall (fun x => g x = true) (c :: a)).
  { apply Forall_forall. intros x I. unfold g. cbn [existsb in_item]. destruct (Z.eqb_spec x 61) as [->|]; [contradiction|reflexivity]. }
  assert (HV : Forall (fun x => h x = true) v).
  { apply Forall_forall. intros x I. unfold h. cbn [existsb in_item]. destruct (Z.eqb_spec x 38) as [->|]; [contradiction|reflexivity]. }
  set (grp := fun n (i : Z) (w : way) => (fst w, Opened n i :: snd w ++ [Closed n (fst w)])).
  set (g3 := fun i => map (grp 3%nat i) (and_then (if match char_at t i with Some x => (38 =? x) && true | None => false end then [(i + 1, [])] else []) (fun i => [(i, [])]) ++
    and_then (when (i =? Z.of_nat (length t)) i) (fun i => [(i, [])]))).
  set (k3 := fun i => and_then (g3 i) (fun i => [(i, [])])).
  set (k2 := fun i => and_then (map (grp 2%nat i) (and_then (many Greedy (one t h) (S (length t)) i) (fun i => [(i, [])]))) k3).
  set (k1 := fun i => and_then (if match char_at t i with Some x => (61 =? x) && true | None => false end then [(i + 1, [])] else []) k2).
  assert (W : ways t false b prm 1 i = and_then (map (grp 1%nat i) (and_then (and_then (one t g i) (many Greedy (one t g) (S (length t)))) (fun i => [(i, [])]))) k1) by reflexivity.
  assert (H3 : hd_error (k3 k) = Some (e, [Opened 3 k; Closed 3 e])).
  { unfold k3. rewrite then_units. unfold g3. rewrite !then_units. destruct R as [->|(r & ->)].
    - assert (EK : k = Z.of_nat (length t)) by (unfold k; rewrite E, app_nil_r; reflexivity).
      assert (EE : e = k) by (unfold e, k; cbn [firstn]; rewrite app_nil_r; reflexivity).
      rewrite EE, EK. rewrite char_at_none, Z.eqb_refl. reflexivity.
    - assert (C38 : char_at t k = Some 38).
      { rewrite E. replace (pre ++ (c :: a) ++ 61 :: v ++ 38 :: r) with ((pre ++ (c :: a) ++ 61 :: v) ++ 38 :: r) by (rewrite <- !app_assoc; cbn [app]; reflexivity). apply char_at_app2. reflexivity. }
      rewrite C38. assert (EE : e = k + 1) by (unfold e, k; cbn [firstn]; rewrite !app_length; cbn [length]; rewrite !app_length; cbn [length]; lia). rewrite EE. reflexivity. }
  assert (H2 : hd_error (k2 (j + 1)) = Some (e, [Opened 2 (j + 1); Closed 2 k; Opened 3 k; Closed 3 e])).
  { unfold k2. rewrite then_units. assert (X := run_hd t h v (pre ++ (c :: a) ++ [61]) rest (S (length t))).
    replace (Z.of_nat (length (pre ++ (c :: a) ++ [61]))) with (j + 1) in X by (unfold j; rewrite !app_length; cbn [length]; lia).
    replace (Z.of_nat (length ((pre ++ (c :: a) ++ [61]) ++ v))) with k in X by (unfold k; rewrite <- !app_assoc; reflexivity).
    assert (Y := map_hd (grp 2%nat (j + 1)) _ _ (X ltac:(rewrite E, <- !app_assoc; reflexivity) HV
      ltac:(destruct R as [->|(r & ->)]; [left; reflexivity|right; exists 38, r; split; reflexivity])
      ltac:(rewrite E, !app_length; cbn [length]; rewrite !app_length; lia))).
    exact (then_hd _ k3 _ _ _ Y H3). }
  assert (H1 : hd_error (k1 j) = Some (e, [Opened 2 (j + 1); Closed 2 k; Opened 3 k; Closed 3 e])).
  { unfold k1. assert (C61 : char_at t j = Some 61) by (rewrite E, app_assoc; apply char_at_app2; reflexivity). rewrite C61. change ((61 =? 61) && true) with true. cbn iota. rewrite then_one. exact H2. }
  assert (H0 : hd_error (and_then (one t g i) (many Greedy (one t g) (S (length t)))) = Some (j, [])).
  { apply Forall_cons_iff in GA as [Gc GA'].
    assert (O : one t g i = [(i + 1, [])]) by (unfold one, i; rewrite E; cbn [app]; rewrite char_at_app, Gc; reflexivity).
    rewrite O, then_one. assert (X := run_hd t g a (pre ++ [c]) (61 :: v ++ rest) (S (length t))).
    replace (Z.of_nat (length (pre ++ [c]))) with (i + 1) in X by (unfold i; rewrite app_length; cbn; lia).
    replace (Z.of_nat (length ((pre ++ [c]) ++ a))) with j in X by (unfold j; rewrite <- app_assoc; reflexivity).
    apply X; [rewrite E, <- app_assoc; reflexivity|exact GA'|right; exists 61, (v ++ rest); split; reflexivity|rewrite E, !app_length; cbn [length]; lia]. }
  assert (H : hd_error (ways t false b prm 1 i) = Some (e, [Opened 1 i; Closed 1 j; Opened 2 (j + 1); Closed 2 k; Opened 3 k; Closed 3 e])).
  { rewrite W, then_units. exact (then_hd _ k1 _ _ _ (map_hd (grp 1%nat i) _ _ H0) H1). }
  destruct (ways t false b prm 1 i) as [|w ws]; [discriminate|]. injection H as ->. exists ws. reflexivity.
Qed.
Lemma prm_end t b : ways t false b prm 1 (Z.of_nat (length t)) = [].
Proof.
  set (g := fun x => xorb true (existsb (in_item x) [CChr 61])).
  assert (O : one t g (Z.of_nat (length t)) = []) by (unfold one; rewrite char_at_none; reflexivity).
  cbn [prm ways ways_branch ways_atom times]. fold g. rewrite O. reflexivity.
Qed.

(** * The loop *)
Lemma look_param beyond t point : Forall char t -> 0 <= point <= Z.of_nat (length t) -> exists f0, forall f, (f0 <= f)%nat ->
  string_looking_at beyond f param_re t point false =
    match ways t false (point =? 0) prm 1 point with [] => MNo false | (j, ev) :: _ => MYes j (match_starts point ev) (match_ends j ev) false end.
Proof.
  intros C B. destruct (C39_looking_at_partial beyond prm t point false (prm_fits t C) B) as (f0 & H). exists f0. intros f F. rewrite <- prm_show. apply H. exact F.
Qed.
Lemma raw_name_ok c : raw_name c -> char c /\ c <> 43 /\ c <> 37.
Proof. unfold raw_name, char. lia. Qed.
Lemma raw_value_ok c : raw_value c -> char c /\ c <> 43 /\ c <> 37.
Proof. unfold raw_value, char. lia. Qed.
Lemma digit_not x : x = 38 \/ x = 61 \/ x = 37 -> forall a d, digit a d -> a <> x.
Proof. intros X a d D. destruct (digit_hex a d D) as (_ & _ & _ & H). lia. Qed.

Lemma param_step beyond pre en ev rest nm v : Forall char pre -> Forall char rest -> (rest = [] \/ exists r, rest = 38 :: r) ->
  nm <> [] -> encoded false raw_name nm en -> encoded true raw_value v ev ->
  exists f0, forall f n acc m, (f0 <= f)%nat -> exists m',
    params_loop beyond f (S n) (pre ++ en ++ 61 :: ev ++ rest) (Z.of_nat (length pre)) acc m =
    params_loop beyond f n (pre ++ en ++ 61 :: ev ++ rest) (Z.of_nat (length (pre ++ en ++ 61 :: ev ++ firstn 1 rest))) (reported (nm, v) :: acc) m'.
Proof.
  intros Cp Cr R NN EN EV. destruct (encoded_decode false raw_name nm en raw_name_ok EN) as [DN Cn]. destruct (encoded_decode true raw_value v ev raw_value_ok EV) as [DV Cv].
  set (t := pre ++ en ++ 61 :: ev ++ rest).
  assert (Ct : Forall char t).
  { unfold t. apply Forall_app. split; [exact Cp|]. apply Forall_app. split; [exact Cn|]. constructor; [unfold char; lia|]. apply Forall_app. split; assumption. }
  destruct (look_param beyond t (Z.of_nat (length pre)) Ct) as (f1 & H1); [unfold t; rewrite app_length; lia|].
  destruct (unquote_ok beyond en Cn) as (f2 & H2). destruct (unquote_ok beyond ev Cv) as (f3 & H3).
  exists (Nat.max f1 (Nat.max f2 f3)). intros f n acc m F. cbn [params_loop].
  destruct en as [|c a]; [apply encoded_empty in EN; contradiction|].
  assert (NA : ~ In 61 (c :: a)) by (eapply (encoded_avoids false raw_name 61); [lia|reflexivity|unfold raw_name; lia|apply digit_not; auto|exact EN]).
  assert (NP : ~ In 37 (c :: a)) by (eapply (encoded_avoids false raw_name 37); [lia|reflexivity|unfold raw_name; lia|apply digit_not; auto|exact EN]).
  assert (NV : ~ In 38 ev) by (eapply (encoded_avoids true raw_value 38); [lia|lia|unfold raw_value; lia|apply digit_not; auto|exact EV]).
  destruct (prm_here t pre c a ev rest (Z.of_nat (length pre) =? 0) eq_refl NA NV R) as (ws & W). rewrite (H1 f ltac:(lia)), W.
  set (i := Z.of_nat (length pre)) in *. set (j := Z.of_nat (length (pre ++ c :: a))) in *. set (k := Z.of_nat (length (pre ++ (c :: a) ++ 61 :: ev))) in *.
  set (e := Z.of_nat (length (pre ++ (c :: a) ++ 61 :: ev ++ firstn 1 rest))) in *.
  cbn [matched bind]. unfold match_start, match_end, match_pos.
  set (md := mkmd t _ _). change ((NSUBEXP <=? 0) || (0 <? 0)) with false. change ((NSUBEXP <=? 1) || (1 <? 0)) with false. change ((NSUBEXP <=? 2) || (2 <? 0)) with false. cbn iota.
  change (nth (Z.to_nat 0) (mep md) None) with (Some e). change (nth (Z.to_nat 1) (msp md) None) with (Some i). change (nth (Z.to_nat 1) (mep md) None) with (Some j).
  cbn [the_pos bind].
  assert (S1 : substring t i j = Ok (c :: a)) by apply sub_mid. rewrite S1. cbn [bind].
  destruct (H2 f (Some md) ltac:(lia)) as (m2 & -> & K2). rewrite (K2 NP). cbn [bind].
  change (nth (Z.to_nat 2) (msp md) None) with (Some (j + 1)). change (nth (Z.to_nat 2) (mep md) None) with (Some k). cbn [the_pos bind].
  assert (S2 : substring t (j + 1) k = Ok ev).
  { assert (X := sub_mid (pre ++ (c :: a) ++ [61]) ev rest). unfold t, j, k. replace (Z.of_nat (length (pre ++ c :: a)) + 1) with (Z.of_nat (length (pre ++ (c :: a) ++ [61]))) by (rewrite !app_length; cbn [length]; lia).
    rewrite <- X. f_equal; [rewrite <- !app_assoc; reflexivity|]. rewrite <- !app_assoc. reflexivity. }
  rewrite S2. cbn [bind]. destruct (H3 f (Some md) ltac:(lia)) as (m3 & -> & _). cbn [bind]. exists m3. rewrite DN, DV. unfold reported. cbn [fst snd]. destruct v; reflexivity.
Qed.
Lemma params_end beyond t : Forall char t -> exists f0, forall f n acc m, (f0 <= f)%nat -> params_loop beyond f (S n) t (Z.of_nat (length t)) acc m = Ok (rev acc).
Proof.
  intros C. destruct (look_param beyond t (Z.of_nat (length t)) C) as (f1 & H1); [lia|]. exists f1. intros f n acc m F. cbn [params_loop]. rewrite (H1 f F), prm_end. reflexivity.
Qed.
Lemma query_chars hex l q : query hex l q -> Forall char q.
Proof.
  induction 1 as [|n v en ev _ E1 E2|n v en ev l q _ E1 E2 Q IH]; [constructor| |];
    destruct (encoded_decode _ _ _ _ raw_name_ok E1) as [_ C1]; destruct (encoded_decode _ _ _ _ raw_value_ok E2) as [_ C2];
    (apply Forall_app; split; [exact C1|constructor; [unfold char; lia|]]); [exact C2|]. apply Forall_app. split; [exact C2|]. constructor; [unfold char; lia|exact IH].
Qed.
Lemma params_ok beyond l q : query false l q -> forall pre, Forall char pre -> exists f0, forall f n acc m, (f0 <= f)%nat -> (length q < n)%nat ->
  params_loop beyond f n (pre ++ q) (Z.of_nat (length pre)) acc m = Ok (rev acc ++ map reported l).
Proof.
  induction 1 as [|nm v en ev NN E1 E2|nm v en ev l q NN E1 E2 Q IH]; intros pre Cp.
  - rewrite app_nil_r. destruct (params_end beyond pre Cp) as (f0 & H). exists f0. intros f n acc m F N. destruct n as [|n]; [lia|]. rewrite (H f n acc m F). cbn [map]. rewrite app_nil_r. reflexivity.
  - destruct (param_step beyond pre en ev [] nm v Cp ltac:(constructor) (or_introl eq_refl) NN E1 E2) as (f1 & H1). rewrite app_nil_r in H1. cbn [firstn] in H1. rewrite app_nil_r in H1.
    assert (C : Forall char (pre ++ en ++ 61 :: ev)) by (apply Forall_app; split; [exact Cp|exact (query_chars _ _ _ (q_one false nm v en ev NN E1 E2))]).
    destruct (params_end beyond _ C) as (f2 & H2). exists (Nat.max f1 f2). intros f n acc m F N. destruct n as [|n]; [lia|].
    destruct (H1 f n acc m ltac:(lia)) as (m' & ->). destruct n as [|n]; [rewrite app_length in N; cbn [length] in N; lia|]. rewrite (H2 f n _ _ ltac:(lia)). reflexivity.
  - assert (Cq := query_chars _ _ _ Q). destruct (param_step beyond pre en ev (38 :: q) nm v Cp) as (f1 & H1); auto; [constructor; [unfold char; lia|exact Cq]|right; exists q; reflexivity|].
    cbn [firstn] in H1. destruct (encoded_decode _ _ _ _ raw_name_ok E1) as [_ C1]. destruct (encoded_decode _ _ _ _ raw_value_ok E2) as [_ C2].
    destruct (IH (pre ++ en ++ 61 :: ev ++ [38])) as (f2 & H2).
    { apply Forall_app. split; [exact Cp|]. apply Forall_app. split; [exact C1|]. constructor; [unfold char; lia|]. apply Forall_app. split; [exact C2|]. repeat constructor; unfold char; lia. }
    exists (Nat.max f1 f2). intros f n acc m F N. destruct n as [|n]; [lia|]. destruct (H1 f n acc m ltac:(lia)) as (m' & ->).
    rewrite app_length in N. cbn [length] in N. rewrite app_length in N. cbn [length] in N.
    assert (X := H2 f n (reported (nm, v) :: acc) m' ltac:(lia) ltac:(lia)).
    replace ((pre ++ en ++ 61 :: ev ++ [38]) ++ q) with (pre ++ en ++ 61 :: ev ++ 38 :: q) in X by (rewrite <- !app_assoc; cbn [app]; rewrite <- app_assoc; reflexivity).
    rewrite X. cbn [rev map]. rewrite <- app_assoc. reflexivity.
Qed.
