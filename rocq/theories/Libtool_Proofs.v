From Coq Require Import List ZArith Bool Lia.
Import ListNotations.
From Verif Require Import Libtool_Model Libtool_Spec.
Local Open Scope Z_scope.

Lemma behind_some : forall p l r, behind p l = Some r <-> l = p ++ r.
Proof.
  induction p as [|x p IH]; intros l r; cbn [behind app].
  - split; intros H; [now injection H | now subst].
  - destruct l as [|y l]; [split; discriminate|].
    destruct (Z.eqb_spec x y) as [<-|N].
    + rewrite IH. split; intros H; [now subst | now injection H].
    + split; [discriminate | intros H; injection H as H _; congruence].
Qed.

Lemma behind_newline : forall p l, ~ In 10 p ->
  behind p (l ++ [10]) = option_map (fun r => r ++ [10]) (behind p l).
Proof.
  induction p as [|x p IH]; intros l N; cbn [behind]; [reflexivity|].
  destruct l as [|y l]; cbn [app].
  - destruct (Z.eqb_spec x 10) as [->|D]; [|reflexivity]. destruct N. now left.
  - destruct (x =? y); [|reflexivity]. apply IH. intros I. apply N. now right.
Qed.

Lemma before_quote_some : forall t x,
  before_quote t = Some x <-> exists rest, t = x ++ 39 :: rest /\ ~ In 39 x.
Proof.
  induction t as [|c t IH]; intros x; cbn [before_quote].
  - split; [discriminate|]. intros (rest & H & _). now destruct x.
  - destruct (Z.eqb_spec c 39) as [->|N].
    + split.
      * intros H. injection H as <-. exists t. split; [reflexivity | intros []].
      * intros (rest & H & I). destruct x as [|y x]; [reflexivity|].
        injection H as <- _. destruct I. now left.
    + destruct (before_quote t) as [u|] eqn:E; cbn [option_map].
      * split.
        -- intros H. injection H as <-. destruct (proj1 (IH u) eq_refl) as (rest & -> & I).
           exists rest. split; [reflexivity|]. intros [F|F]; [congruence | exact (I F)].
        -- intros (rest & H & I). destruct x as [|y x]; [injection H as H _; congruence|].
           injection H as <- H. do 2 f_equal.
           assert (Q : Some u = Some x) by
             (apply IH; exists rest; split; [exact H | intros F; apply I; now right]).
           now injection Q.
      * split; [discriminate|]. intros (rest & H & I).
        destruct x as [|y x]; [injection H as H _; congruence|]. injection H as <- H.
        assert (Q : None = Some x) by
          (apply IH; exists rest; split; [exact H | intros F; apply I; now right]).
        discriminate Q.
Qed.

Lemma before_quote_newline : forall t, before_quote (t ++ [10]) = before_quote t.
Proof.
  induction t as [|c t IH]; [reflexivity|]. cbn [app before_quote]. now rewrite IH.
Qed.

(** ** words *)

Lemma blank_spec : forall c, blank c = true <-> is_blank c.
Proof.
  intros c. unfold blank, is_blank. rewrite orb_true_iff, !Z.eqb_eq. reflexivity.
Qed.

Lemma skip_all : forall b t, Forall is_blank b -> skip_blanks (b ++ t) = skip_blanks t.
Proof.
  intros b t F. induction F as [|c b H F IH]; [reflexivity|].
  cbn [app skip_blanks]. apply blank_spec in H. now rewrite H.
Qed.

Lemma skip_word : forall w t, w <> [] -> Forall (fun c => ~ is_blank c) w -> skip_blanks (w ++ t) = w ++ t.
Proof.
  intros w t N F. destruct F as [|c w H F]; [now destruct N|].
  cbn [app skip_blanks]. destruct (blank c) eqn:E; [|reflexivity].
  apply blank_spec in E. now destruct H.
Qed.

Lemma word_end : forall w t, Forall (fun c => ~ is_blank c) w ->
  (t = [] \/ exists c r, t = c :: r /\ is_blank c) -> word (w ++ t) = (w, t).
Proof.
  intros w t F T. induction F as [|c w H F IH]; cbn [app word].
  - destruct T as [->|(c & r & -> & B)]; [reflexivity|].
    cbn [word]. apply blank_spec in B. now rewrite B.
  - destruct (blank c) eqn:E; [apply blank_spec in E; now destruct H|]. now rewrite IH.
Qed.

Section Load.
  Variable loads : bytes -> bool.

  Lemma load_step : forall fuel w e, w <> [] -> Forall (fun c => ~ is_blank c) w ->
    (e = [] \/ exists c r, e = c :: r /\ is_blank c) ->
    load_loop loads (S fuel) (w ++ e) =
    if loads w then let (ws, ok) := load_loop loads fuel (skip_blanks e) in (w :: ws, ok)
    else ([w], false).
  Proof.
    intros fuel w e N F T. cbn [load_loop]. rewrite (word_end w e F T).
    destruct w as [|c w]; [now destruct N|]. reflexivity.
  Qed.

  Lemma load_nil : forall fuel, load_loop loads fuel [] = ([], true).
  Proof. intros [|fuel]; reflexivity. Qed.

  (** what is asked for: all words up to the first that does not load *)
  Lemma load_words : forall t ws, words t ws -> forall fuel, (length t <= fuel)%nat ->
    ((forall w, In w ws -> loads w = true) -> load_loop loads fuel (skip_blanks t) = (ws, true)) /\
    (forall pre w post, ws = pre ++ w :: post -> (forall v, In v pre -> loads v = true) ->
       loads w = false -> load_loop loads fuel (skip_blanks t) = (pre ++ [w], false)).
  Proof.
    intros t ws H. induction H as [b B|b w B N F|b w c t ws B N F C H IH]; intros fuel L.
    - rewrite <- (app_nil_r b), (skip_all b [] B). cbn [skip_blanks]. rewrite load_nil.
      split; [reflexivity|]. intros pre w post E. now destruct pre.
    - rewrite (skip_all b w B). rewrite <- (app_nil_r w), (skip_word w [] N F).
      rewrite app_length in L.
      destruct fuel as [|fuel]; [destruct w; [now destruct N | cbn [length] in L; lia]|].
      rewrite (load_step fuel w [] N F (or_introl eq_refl)). rewrite app_nil_r. cbn [skip_blanks].
      rewrite load_nil. split.
      + intros A. now rewrite (A w (or_introl eq_refl)).
      + intros pre v post E A V. destruct pre as [|u pre].
        * injection E as <- _. now rewrite V.
        * injection E as _ E. now destruct pre.
    - rewrite (skip_all b _ B), (skip_word w _ N F).
      rewrite !app_length in L. cbn [length] in L.
      destruct fuel as [|fuel]; [lia|].
      assert (L' : (length t <= fuel)%nat) by lia.
      rewrite (load_step fuel w (c :: t) N F) by (right; now exists c, t).
      cbn [skip_blanks]. rewrite (proj2 (blank_spec c) C).
      destruct (IH fuel L') as [P Q]. split.
      + intros A. rewrite (A w (or_introl eq_refl)).
        rewrite P; [reflexivity|]. intros v I. apply A. now right.
      + intros pre v post E A V. destruct pre as [|u pre]; injection E as <- E.
        * now rewrite V.
        * rewrite (A w (or_introl eq_refl)).
          rewrite (Q pre v post E); [reflexivity| |exact V]. intros x I. apply A. now right.
  Qed.

  (** ** lines *)

  Lemma fgets_line : forall n l t, ~ In 10 l -> (length l < n)%nat ->
    fgets n (l ++ 10 :: t) = (l ++ [10], t).
  Proof.
    induction n as [|n IH]; intros l t N L; [lia|].
    destruct l as [|c l]; cbn [app fgets]; [reflexivity|].
    destruct (Z.eqb_spec c 10) as [->|D]; [destruct N; now left|].
    cbn [length] in L. rewrite IH; [reflexivity| |lia]. intros I. apply N. now right.
  Qed.

  Fixpoint read_lines (name : bytes) (r : reading) (ls : list bytes) : reading :=
    match ls with
    | [] => r
    | l :: ls => let r' := one_line loads name r (l ++ [10]) in
                 if failed r' then r' else read_lines name r' ls
    end.

  Lemma read_loop_lines : forall ls fuel name r, Forall fits ls -> (length (text ls) <= fuel)%nat ->
    read_loop loads fuel name r (text ls) = read_lines name r ls.
  Proof.
    induction ls as [|l ls IH]; intros fuel name r F L.
    - destruct fuel; reflexivity.
    - inversion F as [|? ? [N G] F']; subst. unfold text in *. cbn [map concat] in *.
      rewrite app_length, app_length in L. cbn [length] in L.
      destruct fuel as [|fuel]; [lia|].
      assert (E : (l ++ [10]) ++ concat (map (fun l => l ++ [10]) ls) =
                  l ++ 10 :: concat (map (fun l => l ++ [10]) ls)) by now rewrite <- app_assoc.
      rewrite E. cbn [read_loop read_lines]. rewrite (fgets_line 255 l _ N G).
      destruct (l ++ 10 :: concat (map (fun l => l ++ [10]) ls)) eqn:Q; [now destruct l|].
      destruct (failed (one_line loads name r (l ++ [10]))); [reflexivity|].
      apply IH; [exact F' | lia].
  Qed.

  Lemma read_lines_snoc : forall ls name r l, failed (read_lines name r ls) = false ->
    read_lines name r (ls ++ [l]) = one_line loads name (read_lines name r ls) (l ++ [10]).
  Proof.
    induction ls as [|x ls IH]; intros name r l H.
    - cbn [app read_lines]. destruct (failed (one_line loads name r (l ++ [10]))); reflexivity.
    - cbn [app read_lines] in *. destruct (failed (one_line loads name r (x ++ [10]))) eqn:E.
      + congruence.
      + now apply IH.
  Qed.

  Lemma no_newline : ~ In 10 s_dlname /\ ~ In 10 s_globally /\ ~ In 10 s_requires /\ ~ In 10 s_yes.
  Proof. repeat split; intros I; cbn in I; repeat destruct I as [I|I]; try discriminate I; exact I. Qed.

  Lemma line_name : forall name r l x, says_name l x ->
    one_line loads name r (l ++ [10]) = mk_reading (Some (directory name ++ x)) (globally r) (asked r) false.
  Proof.
    intros name r l x [(rest & -> & Q) N]. unfold one_line. destruct no_newline as (A & _).
    rewrite behind_newline by exact A.
    rewrite (proj2 (behind_some s_dlname _ (x ++ 39 :: rest)) eq_refl). cbn [option_map].
    rewrite before_quote_newline.
    rewrite (proj2 (before_quote_some (x ++ 39 :: rest) x)) by (now exists rest).
    destruct x; [now destruct N | reflexivity].
  Qed.

  Lemma other_key : forall p q l, behind p l <> None -> (forall t, behind q (p ++ t) = None) ->
    behind q l = None.
  Proof.
    intros p q l H K. destruct (behind p l) as [r|] eqn:E; [|now destruct H].
    apply behind_some in E. subst l. apply K.
  Qed.

  Lemma line_globally : forall name r l, says_globally l ->
    one_line loads name r (l ++ [10]) = mk_reading (dlname r) true (asked r) false.
  Proof.
    intros name r l (rest & ->). unfold one_line. destruct no_newline as (A & B & _ & D).
    rewrite behind_newline by exact A.
    replace (behind s_dlname (s_globally ++ s_yes ++ rest)) with (@None bytes) by reflexivity.
    cbn [option_map]. rewrite behind_newline by exact B.
    rewrite (proj2 (behind_some s_globally _ (s_yes ++ rest)) eq_refl). cbn [option_map].
    rewrite behind_newline by exact D.
    rewrite (proj2 (behind_some s_yes _ rest) eq_refl). reflexivity.
  Qed.

  Lemma line_requires : forall name r l x, says_requires l x ->
    one_line loads name r (l ++ [10]) =
    let (ws, ok) := load_requires loads x in mk_reading (dlname r) (globally r) (asked r ++ ws) (negb ok).
  Proof.
    intros name r l x (rest & -> & Q). unfold one_line. destruct no_newline as (A & B & C & _).
    rewrite behind_newline by exact A.
    replace (behind s_dlname (s_requires ++ x ++ 39 :: rest)) with (@None bytes) by reflexivity.
    cbn [option_map]. rewrite behind_newline by exact B.
    replace (behind s_globally (s_requires ++ x ++ 39 :: rest)) with (@None bytes) by reflexivity.
    cbn [option_map]. rewrite behind_newline by exact C.
    rewrite (proj2 (behind_some s_requires _ (x ++ 39 :: rest)) eq_refl). cbn [option_map].
    rewrite before_quote_newline.
    now rewrite (proj2 (before_quote_some (x ++ 39 :: rest) x)) by (now exists rest).
  Qed.

  Lemma line_other : forall name r l, (forall x, ~ says_name l x) -> ~ says_globally l ->
    (forall x, ~ says_requires l x) -> one_line loads name r (l ++ [10]) = r.
  Proof.
    intros name r l N G R. unfold one_line. destruct no_newline as (A & B & C & D).
    rewrite behind_newline by exact A. destruct (behind s_dlname l) as [p|] eqn:E; cbn [option_map].
    - rewrite before_quote_newline. destruct (before_quote p) as [[|c x]|] eqn:F; try reflexivity.
      exfalso. apply (N (c :: x)). apply behind_some in E. apply before_quote_some in F.
      destruct F as (rest & -> & F). split; [|discriminate]. exists rest. now split.
    - rewrite behind_newline by exact B. destruct (behind s_globally l) as [p|] eqn:E2; cbn [option_map].
      + rewrite behind_newline by exact D. destruct (behind s_yes p) as [q|] eqn:F; [|reflexivity].
        exfalso. apply G. apply behind_some in E2. apply behind_some in F. subst. now exists q.
      + rewrite behind_newline by exact C. destruct (behind s_requires l) as [p|] eqn:E3; [|reflexivity].
        cbn [option_map]. rewrite before_quote_newline.
        destruct (before_quote p) as [x|] eqn:F; [|reflexivity].
        exfalso. apply (R x). apply behind_some in E3. apply before_quote_some in F.
        destruct F as (rest & -> & F). exists rest. now split.
  Qed.

  Notation begin := (mk_reading None false [] false).

  Lemma read_says : forall name ls n g ws, says ls n g ws -> (forall w, In w ws -> loads w = true) ->
    read_lines name begin ls = mk_reading (option_map (app (directory name)) n) g ws false.
  Proof.
    intros name ls n g ws H.
    induction H as [|ls n g ws l x H IH S1|ls n g ws l H IH S1|ls n g ws l x ws' H IH S1 W|ls n g ws l H IH S1 S2 S3];
      intros A.
    - reflexivity.
    - rewrite read_lines_snoc; rewrite (IH A); [|reflexivity]. now rewrite (line_name name _ l x S1).
    - rewrite read_lines_snoc; rewrite (IH A); [|reflexivity]. now rewrite (line_globally name _ l S1).
    - assert (A1 : forall w, In w ws -> loads w = true) by (intros w I; apply A, in_app_iff; now left).
      assert (A2 : forall w, In w ws' -> loads w = true) by (intros w I; apply A, in_app_iff; now right).
      rewrite read_lines_snoc; rewrite (IH A1); [|reflexivity].
      rewrite (line_requires name _ l x S1). unfold load_requires.
      rewrite (proj1 (load_words x ws' W (length x) (le_n _)) A2). reflexivity.
    - rewrite read_lines_snoc; rewrite (IH A); [|reflexivity]. now rewrite (line_other name _ l S1 S2 S3).
  Qed.

  Lemma read_lines_app : forall ls ls' name r, failed (read_lines name r ls) = true ->
    read_lines name r (ls ++ ls') = read_lines name r ls \/ failed r = true.
  Proof.
    induction ls as [|x ls IH]; intros ls' name r H; [now right|].
    left. cbn [app read_lines] in *.
    destruct (failed (one_line loads name r (x ++ [10]))) eqn:E; [reflexivity|].
    destruct (IH ls' name _ H) as [F|F]; [exact F | congruence].
  Qed.

  Lemma read_fails : forall name ls n g ws l x pre w post more,
    says ls n g ws -> (forall w, In w ws -> loads w = true) ->
    says_requires l x -> words x (pre ++ w :: post) -> (forall v, In v pre -> loads v = true) ->
    loads w = false ->
    read_lines name begin (ls ++ l :: more) =
    mk_reading (option_map (app (directory name)) n) g (ws ++ pre ++ [w]) true.
  Proof.
    intros name ls n g ws l x pre w post more H A R W P F.
    assert (E : read_lines name begin (ls ++ [l]) =
                mk_reading (option_map (app (directory name)) n) g (ws ++ pre ++ [w]) true).
    { rewrite read_lines_snoc; rewrite (read_says name ls n g ws H A); [|reflexivity].
      rewrite (line_requires name _ l x R). unfold load_requires.
      rewrite (proj2 (load_words x _ W (length x) (le_n _)) pre w post eq_refl P F). reflexivity. }
    replace (ls ++ l :: more) with ((ls ++ [l]) ++ more) by now rewrite <- app_assoc.
    destruct (read_lines_app (ls ++ [l]) more name begin) as [Q|Q].
    - rewrite E. reflexivity.
    - now rewrite Q.
    - discriminate Q.
  Qed.
End Load.

Lemma directory_spec : forall name, in_directory (directory name) name.
Proof.
  induction name as [|c r IH].
  - exists []. split; [reflexivity|]. split; [intros [] | now left].
  - destruct IH as (base & E & N & D). cbn [directory].
    destruct (directory r) as [|y d] eqn:Q.
    + cbn [app] in E. subst r. destruct (Z.eqb_spec c 47) as [->|C].
      * exists base. split; [reflexivity|]. split; [exact N | right; now exists []].
      * exists (c :: base). split; [reflexivity|]. split; [|now left].
        intros [F|F]; [congruence | exact (N F)].
    + exists base. split; [cbn [app] in *; now rewrite E|]. split; [exact N|]. right.
      destruct D as [D|[e D]]; [discriminate D|]. exists (c :: e). now rewrite D.
Qed.
