(** Theorems about the XML reader and printer (lisp/rep/xml). *)
From Coq Require Import List ZArith Bool Lia ZifyBool.
From Verif Require Import Regexp_Model Regexp_Spec Find_Model Xml_Model Xml_Spec Xml_Entities Xml_Proofs Xml_Total.
Import ListNotations.
Open Scope Z_scope.

(** The reader, with the budget [f] for each regexp match *)
Definition read_with (beyond junk : Z -> Z) (f n : nat) (t : list Z) : res (option xml * list Z) :=
  read_xml_item (substitute_entities beyond junk f) n t.
Definition print_with (beyond junk : Z -> Z) (f : nat) (other : res (list Z)) (i : xml) : res (list Z) :=
  print_item (escape_entities beyond junk f) other i.

(** * C66 *)

(** Entities are replaced by what they stand for, everything else stays, and
    what a text stands for is determined.  Partial: no zero bytes (C-regexps
    end there). *)
Theorem C66_entities_partial : forall beyond junk t, Forall char t ->
  exists s, stands t s /\ (forall s', stands t s' -> s' = s) /\
    exists f0, forall f, (f0 <= f)%nat -> substitute_entities beyond junk f t = Ok s.
Proof.
  intros beyond junk t C. destruct (entities_ok beyond junk t C) as (f0 & s & St & H). exists s. split; [exact St | ].
  split; [intros s' St'; symmetry; exact (stands_fun _ _ St _ St') | exists f0; exact H].
Qed.
Print Assumptions C66_entities_partial.
(** a&lt;&x;&Auml; *)
Example entities_ex : substitute_entities (fun _ => 0) (fun _ => 0) 500 [97; 38; 108; 116; 59; 38; 120; 59; 38; 65; 117; 109; 108; 59] = Ok [97; 60; 38; 120; 59; 195; 132].
Proof. vm_compute. reflexivity. Qed.

(** Text is read as what it says, and nothing more is read.  Partial: no zero
    bytes; comments without >; white space between the name and the ?> of a
    tag without parameters; no return character right after a name. *)
Theorem C66_read_partial : forall beyond junk i t, written i t -> Forall char t ->
  exists f0, forall f n rest, (f0 <= f)%nat -> (2 * length t < n)%nat -> may_follow i rest ->
    read_with beyond junk f n (t ++ rest) = Ok (Some i, rest).
Proof.
  intros beyond junk i t W C. destruct (decodes_budget beyond junk t C) as (f0 & H). exists f0. intros f n rest F N M.
  unfold read_with, read_xml_item. rewrite (proj1 (read_written_both _) i t W (H f F) n rest M N). reflexivity.
Qed.
Print Assumptions C66_read_partial.
(** <a b = 'x&lt;'>t&amp;<c /></a > followed by a newline *)
Definition read_ex_text : list Z :=
  [60; 97; 32; 98; 32; 61; 32; 39; 120; 38; 108; 116; 59; 39; 62; 116; 38; 97; 109; 112; 59; 60; 99; 32; 47; 62; 60; 47; 97; 32; 62].
Definition read_ex_item : xml := Elem [97] [([98], [120; 60])] [Text [116; 38]; Elem [99] [] []].
Lemma read_ex_written : written read_ex_item read_ex_text.
Proof.
  assert (L : forall s, stands [] s -> stands [120; 38; 108; 116; 59] (120 :: [60] ++ s)).
  { intros s H. apply stands_char; [intros e v _ (u & E); discriminate | ]. apply (stands_entity [108; 116] [60] []); [cbn; tauto | exact H]. }
  change read_ex_text with (60 :: [97] ++ ([32] ++ [98] ++ [32] ++ 61 :: [32] ++ 39 :: [120; 38; 108; 116; 59] ++ 39 :: []) ++ 62 :: ([116; 38; 97; 109; 112; 59] ++ [60; 99; 32; 47; 62] ++ []) ++ [60; 47] ++ [] ++ [97] ++ [32] ++ [62]).
  assert (NC : forall c, (97 <=? c) && (c <=? 122) = true -> name_char c) by (intros c H I; cbn in I; lia).
  apply written_elem.
  - repeat split; try discriminate. repeat constructor. now apply NC.
  - apply params_cons.
    + repeat constructor.
    + repeat split; try discriminate. repeat constructor. now apply NC.
    + repeat constructor.
    + right. cbn. tauto.
    + repeat constructor.
    + now right.
    + exact (L [] stands_nil).
    + intros I. cbn in I. lia.
    + constructor. constructor.
  - right. cbn. tauto.
  - apply body_cons.
    + apply written_text; [ | discriminate | intros I; cbn in I; lia]. apply stands_char; [intros e v _ (u & E); discriminate | ].
      apply (stands_entity [97; 109; 112] [38] [] []); [cbn; tauto | constructor].
    + intros _ X. exact X.
    + apply body_cons; [ | intros [] | constructor]. apply (written_empty [99] [] [32]); [ | constructor; repeat constructor | right; cbn; tauto].
      repeat split; try discriminate. repeat constructor. now apply NC.
  - constructor.
  - repeat constructor.
  - right. cbn. tauto.
Qed.
Example read_ex : read_with (fun _ => 0) (fun _ => 0) 500 100 (read_ex_text ++ [10]) = Ok (Some read_ex_item, [10]) /\ Forall char read_ex_text /\ may_follow read_ex_item [10].
Proof. split; [vm_compute; reflexivity | ]. split; [repeat constructor; lia | intros []]. Qed.

(** Reading always ends, with an error or with an item; it takes at least one
    character unless there is none, and never goes back. *)
Theorem C66_ends_partial : forall beyond junk t, Forall char t ->
  exists f0, forall f n, (f0 <= f)%nat -> (2 * length t < n)%nat ->
    read_with beyond junk f n t = Err \/
    exists r rest, read_with beyond junk f n t = Ok (r, rest) /\ (exists used, t = used ++ rest) /\
      (t = [] /\ r = None \/ (length rest < length t)%nat /\ r <> None).
Proof.
  intros beyond junk t C. destruct (decodes_budget beyond junk t C) as (f0 & H). exists f0. intros f n F N.
  unfold read_with, read_xml_item. destruct (proj1 (total _ n) t N (H f F)) as [-> | (r & st' & -> & S & D)]; [now left | ]. cbn [bind].
  destruct r as [i | | nm]; [right | right | now left].
  - exists (Some i), st'. split; [reflexivity | ]. split; [exact S | ]. destruct D as [[_ D] | [D _]]; [discriminate | right; split; [exact D | discriminate]].
  - exists None, st'. split; [reflexivity | ]. split; [exact S | ]. destruct D as [[D _] | [_ D]]; [left; auto | congruence].
Qed.
Print Assumptions C66_ends_partial.
(** <a b= *)
Example ends_ex : read_with (fun _ => 0) (fun _ => 0) 500 100 [60; 97; 32; 98; 61] = Err.
Proof. vm_compute. reflexivity. Qed.

(** An element that is ended by another name is not read, nor one that is not
    ended.  Partial: the name nil, see below. *)
Theorem C66_unclosed_partial : forall beyond junk nm ps t body u, elem_name nm -> params_written ps t -> after_name t -> body_written body u ->
  Forall char (60 :: nm ++ t ++ 62 :: u) ->
  exists f0, forall f n, (f0 <= f)%nat -> (2 * (length nm + length t + length u) + 6 < n)%nat ->
    (nm <> [110; 105; 108] -> read_with beyond junk f n (60 :: nm ++ t ++ 62 :: u) = Err) /\
    (forall w nm' w' rest, Forall blank w -> good_name nm' -> Forall blank w' -> after_name w' -> nm' <> nm ->
       read_with beyond junk f n (60 :: nm ++ t ++ 62 :: u ++ [60; 47] ++ w ++ nm' ++ w' ++ 62 :: rest) = Err).
Proof.
  intros beyond junk nm ps t body u N P A B C. destruct (decodes_budget beyond junk _ C) as (f0 & H). exists f0. intros f n F L.
  unfold read_with, read_xml_item. split.
  - intros Nn. assert (X := unclosed_err _ nm ps t body u [] n N P A B (H f F) L (or_introl (conj eq_refl Nn))). rewrite app_nil_r in X. now rewrite X.
  - intros w nm' w' rest Bw G Bw' A' Ne. rewrite (unclosed_err _ nm ps t body u ([60; 47] ++ w ++ nm' ++ w' ++ 62 :: rest) n N P A B (H f F) L); [reflexivity | ].
    right. exists w, nm', w', rest. split; [reflexivity | tauto].
Qed.
Print Assumptions C66_unclosed_partial.
(** <a>x</b> *)
Example unclosed_ex : read_with (fun _ => 0) (fun _ => 0) 500 100 [60; 97; 62; 120; 60; 47; 98; 62] = Err /\
  read_with (fun _ => 0) (fun _ => 0) 500 100 [60; 97; 62; 120] = Err.
Proof. split; vm_compute; reflexivity. Qed.
(** An element called nil need not be ended: <nil>x at the end of the input *)
Theorem C66_unclosed_refuted : exists t i, t = [60; 110; 105; 108; 62] /\ i = Elem [110; 105; 108] [] [] /\
  forall beyond junk f n, (2 <= n)%nat -> read_with beyond junk f n t = Ok (Some i, []).
Proof.
  exists [60; 110; 105; 108; 62], (Elem [110; 105; 108] [] []). split; [reflexivity | ]. split; [reflexivity | ].
  intros beyond junk f [ | [ | n]] L; try lia. reflexivity.
Qed.
Print Assumptions C66_unclosed_refuted.
(** <?xml?> cannot be read: the question mark is taken for part of the name *)
Theorem C66_question_refuted : exists t, t = [60; 63; 120; 109; 108; 63; 62] /\
  forall beyond junk f n, (3 <= n)%nat -> read_with beyond junk f n t = Err.
Proof.
  exists [60; 63; 120; 109; 108; 63; 62]. split; [reflexivity | ]. intros beyond junk f [ | [ | [ | n]]] L; try lia. reflexivity.
Qed.
Print Assumptions C66_question_refuted.
(** A comment ends at the first >: of <!--a>b--> only <!--a> is read *)
Theorem C66_comment_refuted : exists t i rest, t = [60; 33; 45; 45; 97; 62; 98; 45; 45; 62] /\ i = Bang [45; 45; 97] /\ rest = [98; 45; 45; 62] /\
  forall beyond junk, exists f0, forall f n, (f0 <= f)%nat -> (1 <= n)%nat -> read_with beyond junk f n t = Ok (Some i, rest).
Proof.
  exists [60; 33; 45; 45; 97; 62; 98; 45; 45; 62], (Bang [45; 45; 97]), [98; 45; 45; 62]. do 3 (split; [reflexivity | ]). intros beyond junk.
  destruct (C66_entities_partial beyond junk [45; 45; 97] ltac:(repeat constructor; lia)) as (s & _ & U & f0 & E). exists f0. intros f [ | n] F N; [lia | ].
  assert (Es : s = [45; 45; 97]). { symmetry. apply U. repeat (apply stands_char; [intros e v _ (u & X); discriminate | ]). constructor. }
  unfold read_with, read_xml_item. rewrite read_item_S. change (read_exclam_body (substitute_entities beyond junk f) [45; 45; 97; 62; 98; 45; 45; 62]) with
    (let* data := substitute_entities beyond junk f [45; 45; 97] in Ok (Item (Bang data), [98; 45; 45; 62])).
  cbn -[substitute_entities]. rewrite (E f F), Es. reflexivity.
Qed.
Print Assumptions C66_comment_refuted.
(** A return character after a name becomes part of the name: <a, return, /> *)
Theorem C66_return_refuted : exists t i, t = [60; 97; 13; 47; 62] /\ i = Elem [97; 13] [] [] /\
  forall beyond junk f n, (2 <= n)%nat -> read_with beyond junk f n t = Ok (Some i, []).
Proof.
  exists [60; 97; 13; 47; 62], (Elem [97; 13] [] []). do 2 (split; [reflexivity | ]). intros beyond junk f [ | [ | n]] L; try lia. reflexivity.
Qed.
Print Assumptions C66_return_refuted.

(** * C67 *)

(** What is printed for a string *)
Theorem C67_text_partial : forall beyond junk other s, Forall char s ->
  exists f0, forall f, (f0 <= f)%nat -> print_with beyond junk f other (Text s) = Ok (flat_map put_for s).
Proof. intros beyond junk other s C. exact (escape_ok beyond junk s C). Qed.
Print Assumptions C67_text_partial.
Example text_ex : print_with (fun _ => 0) (fun _ => 0) 500 Err (Text [97; 60; 98]) = Ok [97; 108; 116; 98].
Proof. vm_compute. reflexivity. Qed.

(** What is printed is read back as the same item.  Partial: [plain]. *)
Theorem C67_round_partial : forall beyond junk beyond' junk' other i, plain i ->
  exists f0 t, forall f, (f0 <= f)%nat -> print_with beyond junk f other i = Ok t /\
    forall n rest, (2 * length t < n)%nat -> may_follow i rest -> read_with beyond' junk' f n (t ++ rest) = Ok (Some i, rest).
Proof.
  intros beyond junk beyond' junk' other i Pl.
  destruct (budget (fun f s => escape_entities beyond junk f s = Ok (flat_map put_for s)) (strings i)) as (f1 & H1).
  { intros s I. apply escape_ok. exact (proj1 (Forall_forall _ _) (proj1 plain_strings i Pl) s I). }
  destruct (proj1 (printed (escape_entities beyond junk f1) other) i Pl (fun s I => H1 f1 s (le_n _) I)) as (t & E & W & C).
  destruct (C66_read_partial beyond' junk' i t W C) as (f2 & H2). exists (max f1 f2), t. intros f F. split.
  - destruct (proj1 (printed (escape_entities beyond junk f) other) i Pl (fun s I => H1 f s ltac:(lia) I)) as (t' & E' & W' & C').
    unfold print_with. rewrite E'. f_equal. clear - E E' H1 F Pl.
    assert (X : forall f, (f1 <= f)%nat -> print_item (escape_entities beyond junk f) other i = print_item (fun s => Ok (flat_map put_for s)) other i).
    { intros f' L. assert (Y : forall j, (forall s, In s (strings j) -> escape_entities beyond junk f' s = Ok (flat_map put_for s)) ->
        print_item (escape_entities beyond junk f') other j = print_item (fun s => Ok (flat_map put_for s)) other j).
      { fix rec 1. intros [s | nm ps body | d] Hs.
        - cbn [print_item]. apply Hs. now left.
        - rewrite !print_Elem. destruct (list_eq_dec Z.eq_dec nm [33]); [reflexivity | ].
          assert (Ep : print_params (escape_entities beyond junk f') ps = print_params (fun s => Ok (flat_map put_for s)) ps).
          { assert (Hp : forall s, In s (map snd ps) -> escape_entities beyond junk f' s = Ok (flat_map put_for s)) by (intros s I; apply Hs; cbn [strings]; apply in_or_app; now left).
            clear - Hp. induction ps as [ | [a b] ps IH]; [reflexivity | ]. cbn [print_params]. rewrite (Hp b (or_introl eq_refl)), IH; [reflexivity | ]. intros s I. apply Hp. now right. }
          rewrite Ep. destruct (print_params (fun s => Ok (flat_map put_for s)) ps) as [p0 | | | ]; try reflexivity. cbn [bind].
          destruct (at_char nm 63); [reflexivity | ].
          assert (Eb : print_list (escape_entities beyond junk f') other body = print_list (fun s => Ok (flat_map put_for s)) other body).
          { assert (Hb : forall s, In s (flat_map strings body) -> escape_entities beyond junk f' s = Ok (flat_map put_for s)) by (intros s I; apply Hs; cbn [strings]; apply in_or_app; now right).
            clear - rec Hb. induction body as [ | x body IH]; [reflexivity | ].
            change (print_list (escape_entities beyond junk f') other (x :: body)) with (let* a := print_item (escape_entities beyond junk f') other x in let* b := print_list (escape_entities beyond junk f') other body in Ok (a ++ b)).
            change (print_list (fun s => Ok (flat_map put_for s)) other (x :: body)) with (let* a := print_item (fun s => Ok (flat_map put_for s)) other x in let* b := print_list (fun s => Ok (flat_map put_for s)) other body in Ok (a ++ b)).
            rewrite IH by (intros s I; apply Hb; cbn [flat_map]; apply in_or_app; now right).
            rewrite (rec x) by (intros s I; apply Hb; cbn [flat_map]; apply in_or_app; now left). reflexivity. }
          rewrite Eb. reflexivity.
        - reflexivity. }
      apply Y. intros s I. now apply H1. }
    rewrite (X f1 (le_n _)) in E. rewrite (X f ltac:(lia)) in E'. congruence.
  - intros n rest N M. apply H2; auto. lia.
Qed.
Print Assumptions C67_round_partial.
(** (a ((b . "x")) "t" (c ()) "u") *)
Definition round_ex_item : xml := Elem [97] [([98], [120])] [Text [116]; Elem [99] [] []; Text [117]].
Lemma round_ex_plain : plain round_ex_item.
Proof.
  assert (NC : forall c, (97 <=? c) && (c <=? 122) = true -> good_name [c]) by (intros c H; split; [discriminate | ]; constructor; [intros I; cbn in I; lia | constructor]).
  assert (Hm : forall c, (97 <=? c) && (c <=? 122) = true -> harmless [c]) by (intros c H; constructor; [split; [unfold char; lia | intros I; cbn in I; lia] | constructor]).
  apply plain_elem.
  - split; [now apply NC | split; discriminate].
  - repeat constructor.
  - constructor; [ | constructor]. split; [split; [now apply NC | discriminate] | ]. split; [repeat constructor | now apply Hm].
  - apply plain_cons; [apply plain_text; [now apply Hm | discriminate] | intros _ X; exact X | ].
    apply plain_cons; [apply plain_elem; [split; [now apply NC | split; discriminate] | repeat constructor | constructor | constructor] | intros [] | ].
    apply plain_cons; [apply plain_text; [now apply Hm | discriminate] | intros _ X; exact X | constructor].
Qed.
(** <a b="x">t<c/>u</a> *)
Example round_ex : print_with (fun _ => 0) (fun _ => 0) 500 Err round_ex_item =
  Ok [60; 97; 32; 98; 61; 34; 120; 34; 62; 116; 60; 99; 47; 62; 117; 60; 47; 97; 62].
Proof. vm_compute. reflexivity. Qed.

(** Not so for <: it is printed as the two letters lt, as is the string lt *)
Theorem C67_escape_refuted : exists s s', s <> s' /\ forall beyond junk other, exists f0, forall f, (f0 <= f)%nat ->
  print_with beyond junk f other (Text s) = print_with beyond junk f other (Text s').
Proof.
  exists [60], [108; 116]. split; [discriminate | ]. intros beyond junk other.
  destruct (C67_text_partial beyond junk other [60] ltac:(repeat constructor)) as (f1 & H1).
  destruct (C67_text_partial beyond junk other [108; 116] ltac:(repeat constructor)) as (f2 & H2). exists (max f1 f2). intros f F.
  rewrite H1, H2 by lia. reflexivity.
Qed.
Print Assumptions C67_escape_refuted.
(** What a comment says is not printed: two comments are printed the same *)
Theorem C67_comment_refuted : exists d d', d <> d' /\ forall beyond junk f other,
  print_with beyond junk f other (Bang d) = print_with beyond junk f other (Bang d').
Proof. exists [97], [98]. split; [discriminate | reflexivity]. Qed.
Print Assumptions C67_comment_refuted.
(** (?xml ()) is printed as something that cannot be read *)
Theorem C67_question_refuted : exists i t, i = Elem [63; 120; 109; 108] [] [] /\ forall beyond junk f other,
  print_with beyond junk f other i = Ok t /\ forall n, (3 <= n)%nat -> read_with beyond junk f n t = Err.
Proof.
  destruct C66_question_refuted as (t & Et & H). exists (Elem [63; 120; 109; 108] [] []), t. split; [reflexivity | ].
  intros beyond junk f other. split; [subst t; reflexivity | apply H].
Qed.
Print Assumptions C67_question_refuted.
(** Two strings side by side are read back as one *)
Theorem C67_merge_refuted : exists i i', i <> i' /\ forall beyond junk other, exists f0, forall f, (f0 <= f)%nat ->
  exists t, print_with beyond junk f other i = Ok t /\ forall n, (2 * length t < n)%nat -> read_with beyond junk f n t = Ok (Some i', []).
Proof.
  exists (Elem [97] [] [Text [120]; Text [121]]), (Elem [97] [] [Text [120; 121]]). split; [discriminate | ]. intros beyond junk other.
  destruct (C67_text_partial beyond junk other [120] ltac:(repeat constructor)) as (f1 & H1).
  destruct (C67_text_partial beyond junk other [121] ltac:(repeat constructor)) as (f2 & H2).
  assert (Pl : plain (Elem [97] [] [Text [120; 121]])).
  { apply plain_elem; [split; [split; [discriminate | ] | split; discriminate] | repeat constructor | constructor | ].
    - constructor; [intros I; cbn in I; lia | constructor].
    - apply plain_cons; [apply plain_text; [ | discriminate] | intros _ X; exact X | constructor].
      repeat (constructor; [split; [unfold char; lia | intros I; cbn in I; lia] | ]). constructor. }
  destruct (C67_round_partial beyond junk beyond junk other _ Pl) as (f3 & t & H3).
  destruct (C67_text_partial beyond junk other [120; 121] ltac:(repeat constructor)) as (f4 & H4).
  exists (max (max f1 f2) (max f3 f4)). intros f F. destruct (H3 f ltac:(lia)) as [E R]. exists t. split.
  - rewrite <- E. unfold print_with in *. cbn [print_item] in H1, H2, H4. cbn [print_item print_params bind].
    rewrite H1, H2, H4 by lia. reflexivity.
  - intros n N. rewrite <- (app_nil_r t). apply R; [exact N | intros []].
Qed.
Print Assumptions C67_merge_refuted.
