(** C105: files of libtool that name a library. *)
From Coq Require Import List ZArith Bool Lia.
Import ListNotations.
From Verif Require Import Libtool_Model Libtool_Spec Libtool_Proofs.
Local Open Scope Z_scope.

(** A file [d/x.la]: a comment, a name, a line of two required modules with blanks around them. *)
Definition ex_name : bytes := [100; 47; 120; 46; 108; 97].
Definition ex_lines : list bytes :=
  [[35; 32; 108; 97];
   s_dlname ++ [120; 46; 115; 111; 39];
   s_requires ++ [32; 97; 98; 9; 99; 32; 39];
   s_globally ++ s_yes].
Definition ex_words : list bytes := [[97; 98]; [99]].

Lemma ex_word_rel : words [32; 97; 98; 9; 99; 32] ex_words.
Proof.
  unfold ex_words. apply (WMore [32] [97; 98] 9 [99; 32] [[99]]).
  - repeat constructor.
  - discriminate.
  - repeat constructor; unfold is_blank; lia.
  - now right.
  - apply (WMore [] [99] 32 [] []).
    + constructor.
    + discriminate.
    + repeat constructor; unfold is_blank; lia.
    + now left.
    + apply WNone. constructor.
Qed.

Lemma ex_first : says [[35; 32; 108; 97]; s_dlname ++ [120; 46; 115; 111; 39]] (Some [120; 46; 115; 111]) false [].
Proof.
  apply (SName [[35; 32; 108; 97]] None false []).
  - apply (SOther [] None false []); [constructor| | |].
    + intros x [(rest & E & _) _]. discriminate E.
    + intros (rest & E). discriminate E.
    + intros x (rest & E & _). discriminate E.
  - split; [|discriminate]. exists []. split; [reflexivity|]. cbn [In]. lia.
Qed.

Lemma ex_requires : says_requires (s_requires ++ [32; 97; 98; 9; 99; 32; 39]) [32; 97; 98; 9; 99; 32].
Proof. exists []. split; [reflexivity|]. cbn [In]. lia. Qed.

Lemma ex_says : says ex_lines (Some [120; 46; 115; 111]) true ex_words.
Proof.
  apply (SGlobal [_; _; _] (Some _) false ex_words); [|now exists []].
  apply (SRequires [_; _] (Some _) false [] _ [32; 97; 98; 9; 99; 32]); [exact ex_first|exact ex_requires|exact ex_word_rel].
Qed.

Lemma ex_fits : Forall fits ex_lines.
Proof.
  repeat constructor; cbn; try lia; intros I; repeat destruct I as [I|I]; try discriminate I; exact I.
Qed.

(** Full statement: what a file says is what is read, for all files.  Missing: lines of 255 bytes or
    more (refuted below). *)
Theorem C105_read_partial : forall loads name ls n g ws,
  Forall fits ls -> says ls n g ws -> (forall w, In w ws -> loads w = true) ->
  exists d, in_directory d name /\
  let r := read_la loads name (text ls) in
  dlname r = option_map (app d) n /\ globally r = g /\ asked r = ws /\ failed r = false /\ closed r = true.
Proof.
  intros loads name ls n g ws F H A. exists (directory name). split; [apply directory_spec|].
  unfold read_la. rewrite (read_loop_lines loads ls _ name _ F (le_n _)).
  rewrite (read_says loads name ls n g ws H A). repeat split.
Qed.
Print Assumptions C105_read_partial.

Example C105_read_case : Forall fits ex_lines /\ says ex_lines (Some [120; 46; 115; 111]) true ex_words /\
  read_la (fun _ => true) ex_name (text ex_lines) =
    mk_reading (Some [100; 47; 120; 46; 115; 111]) true ex_words false.
Proof. split; [exact ex_fits|]. split; [exact ex_says | reflexivity]. Qed.

(** When a required module does not load, nothing behind it is asked for, and the library
    is not opened. *)
Theorem C105_required : forall loads name ls n g ws l x pre w post more,
  Forall fits (ls ++ l :: more) -> says ls n g ws -> (forall w, In w ws -> loads w = true) ->
  says_requires l x -> words x (pre ++ w :: post) -> (forall v, In v pre -> loads v = true) ->
  loads w = false ->
  let r := read_la loads name (text (ls ++ l :: more)) in
  failed r = true /\ asked r = ws ++ pre ++ [w].
Proof.
  intros loads name ls n g ws l x pre w post more F H A R W P V.
  unfold read_la. rewrite (read_loop_lines loads _ _ name _ F (le_n _)).
  rewrite (read_fails loads name ls n g ws l x pre w post more H A R W P V). split; reflexivity.
Qed.
Print Assumptions C105_required.

Definition ex_loads (w : bytes) : bool := match w with [99] => true | _ => false end.
Example C105_required_case :
  let r := read_la ex_loads ex_name (text ex_lines) in failed r = true /\ asked r = [[97; 98]].
Proof.
  unfold ex_lines.
  match goal with |- context [text [?a; ?b; ?c; ?d]] =>
    change (text [a; b; c; d]) with (text ([a; b] ++ c :: [d])) end.
  eapply (C105_required ex_loads ex_name) with (pre := []) (w := [97; 98]) (post := [[99]]) (ws := []).
  - exact ex_fits.
  - exact ex_first.
  - intros w [].
  - exact ex_requires.
  - exact ex_word_rel.
  - intros v [].
  - reflexivity.
Qed.

(** The file is not closed when a required module does not load. *)
Theorem C105_closed_refuted : exists loads name ls, Forall fits ls /\
  closed (read_la loads name (text ls)) = false.
Proof. exists (fun _ => false), ex_name, ex_lines. split; [exact ex_fits | reflexivity]. Qed.
Print Assumptions C105_closed_refuted.

(** A line that says nothing gives the name when it is long: what is behind its first 255 bytes is
    read as a line of its own. *)
Theorem C105_long_refuted : exists name l x, ~ In 10 l /\ says [l] None false [] /\
  dlname (read_la (fun _ => true) name (text [l])) = Some x.
Proof.
  exists [120; 46; 108; 97], (repeat 35 255 ++ s_dlname ++ [121; 39]), [121]. split; [|split].
  - intros I. apply in_app_iff in I. destruct I as [I|I]; [apply repeat_spec in I; discriminate I|].
    cbn in I. repeat destruct I as [I|I]; try discriminate I; exact I.
  - apply (SOther [] None false []); [constructor| | |].
    + intros x [(rest & E & _) _]. discriminate E.
    + intros (rest & E). discriminate E.
    + intros x (rest & E & _). discriminate E.
  - vm_compute. reflexivity.
Qed.
Print Assumptions C105_long_refuted.
