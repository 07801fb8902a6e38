(** C83: cgi-get-params (lisp/rep/www/cgi-get.jl). *)
From Coq Require Import ZArith List Bool Lia.
Import ListNotations.
From Verif Require Import Regexp_Model Regexp_Spec Find_Model Cgi_Model Cgi_Spec Cgi_Proofs.
Open Scope Z_scope.

(** However names and values are written, cgi-get-params gives them, in order.
    Missing: names with % (refuted below), queries that have not the form *)
Theorem C83_params_partial : forall beyond l q, query false l q ->
  exists f0, forall f m, (f0 <= f)%nat -> cgi_get_params beyond f q m = Ok (map reported l).
Proof.
  intros beyond l q Q. destruct (params_ok beyond l q Q [] ltac:(constructor)) as (f0 & H). exists f0. intros f m F.
  exact (H f (S (length q)) [] m F ltac:(lia)).
Qed.
Print Assumptions C83_params_partial.
(** A query says one thing only *)
Theorem C83_unambiguous_partial : forall l l' q, query false l q -> query false l' q -> l = l'.
Proof.
  intros l l' q Q Q'. destruct (C83_params_partial (fun _ => 0) l q Q) as (f0 & H). destruct (C83_params_partial (fun _ => 0) l' q Q') as (f1 & H').
  assert (E : map reported l = map reported l') by (specialize (H (Nat.max f0 f1) None ltac:(lia)); specialize (H' (Nat.max f0 f1) None ltac:(lia)); congruence).
  clear - E. revert l' E. induction l as [|[n v] l IH]; intros [|[n' v'] l'] E; try discriminate; [reflexivity|]. injection E as <- V E. rewrite (IH _ E). f_equal. f_equal.
  destruct v, v'; try discriminate; [reflexivity|]. injection V as <- <-. reflexivity.
Qed.
Print Assumptions C83_unambiguous_partial.
(** Decoding alone: every value, with any choice of what is escaped *)
Theorem C83_value : forall beyond v ev, encoded true raw_value v ev ->
  exists f0, forall f m, (f0 <= f)%nat -> exists m', unquote beyond f ev m = Ok (v, m').
Proof.
  intros beyond v ev E. destruct (encoded_decode true raw_value v ev raw_value_ok E) as [D C]. destruct (unquote_ok beyond ev C) as (f0 & H).
  exists f0. intros f m F. destruct (H f m F) as (m' & R & _). exists m'. rewrite R, D. reflexivity.
Qed.
Print Assumptions C83_value.

(** "a b=x%3d&c=" : a b has x=, c has nothing *)
Example ex_query : query false [([97; 32; 98], [120; 61]); ([99], [])] [97; 43; 98; 61; 120; 37; 51; 100; 38; 99; 61].
Proof.
  change [97; 43; 98; 61; 120; 37; 51; 100; 38; 99; 61] with ([97; 43; 98] ++ 61 :: [120; 37; 51; 100] ++ 38 :: ([99] ++ 61 :: [])).
  apply q_more; [discriminate| | |].
  - apply e_raw; [unfold raw_name; lia|]. apply e_space. apply e_raw; [unfold raw_name; lia|constructor].
  - apply e_raw; [unfold raw_value; lia|]. apply (e_hex true raw_value 3 13 51 100); [reflexivity|apply (d_dec 3); lia|apply (d_low 13); lia|constructor].
  - apply q_one; [discriminate|apply e_raw; [unfold raw_name; lia|constructor]|constructor].
Qed.
Example ex_params : forall beyond m, cgi_get_params beyond 60 [97; 43; 98; 61; 120; 37; 51; 100; 38; 99; 61] m = Ok [([97; 32; 98], Some [120; 61]); ([99], None)].
Proof. reflexivity. Qed.

(** A name with % is an error: decoding it overwrites the match data that the
    value is then looked up with.  "%41=1" *)
Theorem C83_escaped_name_refuted : exists l q, query true l q /\ forall beyond f m, cgi_get_params beyond (60 + f) q m = Err.
Proof.
  exists [([65], [49])], [37; 52; 49; 61; 49]. split.
  - change [37; 52; 49; 61; 49] with ([37; 52; 49] ++ 61 :: [49]). apply q_one; [discriminate| |].
    + apply (e_hex true raw_name 4 1 52 49); [reflexivity|apply (d_dec 4); lia|apply (d_dec 1); lia|constructor].
    + apply e_raw; [unfold raw_value; lia|constructor].
  - reflexivity.
Qed.
Print Assumptions C83_escaped_name_refuted.
(** The parts between & are not independent: a part without = becomes part of
    the next name ("a&b=1" gives the one parameter a&b) *)
Theorem C83_parts_refuted : exists q1 q2 p1 p2 p, (forall beyond f m, cgi_get_params beyond (60 + f) q1 m = Ok p1 /\ cgi_get_params beyond (60 + f) q2 m = Ok p2 /\
    cgi_get_params beyond (60 + f) (q1 ++ 38 :: q2) m = Ok p) /\ p <> p1 ++ p2 /\ length p = length (p1 ++ p2).
Proof.
  exists [97], [98; 61; 49], [], [([98], Some [49])], [([97; 38; 98], Some [49])]. split; [repeat split; reflexivity|]. split; [discriminate|reflexivity].
Qed.
Print Assumptions C83_parts_refuted.
(** A part without a name hides all that follow: "=1&b=2" *)
Theorem C83_nameless_refuted : exists q1 q2 p2, p2 <> [] /\ forall beyond f m, cgi_get_params beyond (60 + f) q2 m = Ok p2 /\
    cgi_get_params beyond (60 + f) (q1 ++ 38 :: q2) m = Ok [].
Proof. exists [61; 49], [98; 61; 50], [([98], Some [50])]. split; [discriminate|]. split; reflexivity. Qed.
Print Assumptions C83_nameless_refuted.
(** % followed by anything is decoded: "a=%G0" has a zero byte for value,
    though %G0 is no way to write any value *)
Theorem C83_malformed_refuted : exists ev, (forall v, ~ encoded true raw_value v ev) /\
  forall beyond f m, cgi_get_params beyond (60 + f) ([97; 61] ++ ev) m = Ok [([97], Some [0])].
Proof.
  exists [37; 71; 48]. split; [|reflexivity]. intros v H. inversion H as [|c s e R _| |c1 c2 a b s e _ D1 D2 E]; subst; [unfold raw_value in R; lia|].
  destruct (digit_hex _ _ D1) as (X & _ & _ & _ & _ & _ & Y). change (hexdigit 71) with 16 in X. lia.
Qed.
Print Assumptions C83_malformed_refuted.
