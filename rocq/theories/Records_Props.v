(* C75: records and data objects *)
From Coq Require Import List Arith Bool Lia.
Import ListNotations.
From Verif Require Import Records_Model Records_Spec Records_Proofs.

(* Every program that makes record types and data objects, makes records with
   either kind of constructor, and reads, changes and asks about them sees
   what the description says: the constructor fills the named fields and the
   others are nil, an accessor gives what was last put in that field of that
   record, a modifier changes nothing else, a predicate holds just for the
   records of its type, two types are different even when they have the same
   name and fields, and whatever does not apply is an error that changes
   nothing. *)
Theorem C75_records : forall p, fits [] p -> run initial [] p = srun [] [] p.
Proof.
  intros p F. apply (run_rel p initial [] [] [] [] []); auto.
  - apply initial_rel.
  - split; auto. intros n name H. destruct n; discriminate.
Qed.
Print Assumptions C75_records.

(* :pare with the fields x and y; kons by the macro with (x #!optional y) *)
Definition PARE : sym := 10.
Definition X : sym := 11.
Definition Y : sym := 12.
Definition A_ : sym := 20.
Definition B_ : sym := 21.
Definition demo : list op :=
  [ NewType PARE [X; Y];                                                    (* 0 *)
    NewType PARE [X; Y];                                                    (* 1, the same name *)
    MacroConstruct (OReg 0) (mkl [Plain X; Marker 5; Default Y] None) [OSym A_; OSym B_];   (* 2 *)
    Construct (OReg 0) [Y] [OReg 2];                                        (* 3 *)
    Set_ (OReg 0) X (OReg 2) (OReg 3);
    Get (OReg 0) X (OReg 2); Get (OReg 0) Y (OReg 2);
    Get (OReg 0) X (OReg 3); Get (OReg 0) Y (OReg 3);
    Is (OReg 0) (OReg 2); Is (OReg 1) (OReg 2); Get (OReg 1) X (OReg 2);
    NewDatum (OReg 3) PARE; HasType (OReg 12) PARE; HasType (OReg 2) PARE; DatumSet (OReg 12) PARE ONil; DatumRef (OReg 12) PARE ].
Example demo_fits : fits [] demo.
Proof. cbn. unfold PARE, VECTOR, MAKE_RECORD_DATUM, X, Y. repeat split; try lia; try discriminate; intros [H|[H|[]]]; discriminate. Qed.
Example demo_run : run initial [] demo =
  [ SeenObj 0; SeenObj 1; SeenObj 2; SeenObj 3; SeenObj 3; SeenObj 3; SeenSym B_; SeenNil; SeenObj 2;
    SeenSym T; SeenNil; SeenError; SeenObj 12; SeenSym T; SeenNil; SeenNil; SeenNil ].
Proof. reflexivity. Qed.

(* has-type-p is described as true only for objects created by make-datum.
   The empty list has the type of the empty list. *)
Theorem C75_has_type_refuted : exists d id, has_type_p initial d id = true /\ heap initial = [].
Proof. exists Nil, Nil. split; reflexivity. Qed.
Print Assumptions C75_has_type_refuted.

(* So its value can be changed, in every state: datum-set on a constant that
   every module has. *)
Theorem C75_eol_is_mutable : forall st v,
  exists st', datum_set st Nil Nil v = Some (v, st') /\ datum_ref st' Nil Nil = Some v /\ heap st' = heap st.
Proof. intros st v. exists (mk (heap st) v). repeat split. Qed.
Print Assumptions C75_eol_is_mutable.

(* An accessor of a field that the type does not have is an error when it is
   made, for every name; but the empty list counts as a field, so that for
   it the error comes only with the first call. *)
Theorem C75_accessor_unknown_field : forall st rt name fields f,
  fetch st rt = Some (RType name fields) -> ~ In f fields -> record_accessor st rt (Sym f) = None.
Proof.
  intros st rt name fields f H N. unfold record_accessor, field_index, type_fields. rewrite H, field_index_index.
  destruct (index 0 fields f) eqn:E; auto. exfalso. apply N. apply member_in.
  rewrite (index_member fields 0), E. auto.
Qed.
Print Assumptions C75_accessor_unknown_field.

Theorem C75_accessor_nil_refuted : exists st rt i,
  type_fields st rt = Some [X; Y] /\ record_accessor st rt Nil = Some i /\
  forall r, call_accessor st rt i r = None.
Proof.
  exists (mk [RType PARE [X; Y]] Nil), (Ref 0), 2. repeat split.
  intros [|s|f|[|[|a]]]; reflexivity.
Qed.
Print Assumptions C75_accessor_nil_refuted.

(* A constructor with a parameter that is named like the function its body
   calls always fails. *)
Theorem C75_field_named_vector_refuted : exists st rt l,
  type_fields st rt = Some [VECTOR] /\ params l = [VECTOR] /\
  forall s, macro_construct st rt l [Sym s] = None.
Proof.
  exists (mk [RType PARE [VECTOR]] Nil), (Ref 0), (mkl [Plain VECTOR] None). repeat split.
Qed.
Print Assumptions C75_field_named_vector_refuted.

(* A parameter with the name of the type makes an object that is no record of
   the type. *)
Theorem C75_field_named_type_refuted : exists st rt l,
  type_fields st rt = Some [PARE] /\ params l = [PARE] /\
  forall s, exists r st', macro_construct st rt l [Sym s] = Some (r, st') /\ call_predicate st' rt r = false.
Proof.
  exists (mk [RType PARE [PARE]] Nil), (Ref 0), (mkl [Plain PARE] None). repeat split.
  intro s. eexists _, _. split; reflexivity.
Qed.
Print Assumptions C75_field_named_type_refuted.
