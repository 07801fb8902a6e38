(** C73: the origin of a form. *)
From Coq Require Import ZArith List Bool Arith Lia.
From Verif Require Import Origins_Model Origins_Spec Origins_Proofs.
Import ListNotations.

(** Whatever has been read, changed, collected and given out again before, the
    origin of a form is what was said of it, or else of its first element that
    has one; a cell in the place of an older one has no origin of the older. *)
Theorem C73_origin : forall l s v t n, steps start l = Some s -> is_form s v t -> 2 * size t <= n ->
  lexical_origin n s v = Some (form_origin (said_by l) t).
Proof.
  intros l s v t n R F L. pose proof (inv_steps l _ _ _ inv_start R) as I.
  apply (proj1 (lexical_ok (said_by l) s (known _ _ I) n t v F)). exact L.
Qed.
Print Assumptions C73_origin.

Definition file (n : nat) (line : Z) : stream := mk_stream true false n line.
(** (1 (2)) is read; the inner list begins on line 3, the outer on line 2.  Both
    are dropped, the inner one's place is used for a list that is not read from a
    file and holds another that is. *)
Definition history : list op :=
  [Cons 8 (Sym 2) (Sym 0); Record_ true (Ptr 8) (file 1 4) 3; Cons 16 (Ptr 8) (Sym 0); Cons 24 (Sym 1) (Ptr 16);
   Record_ true (Ptr 24) (file 1 4) 2; Collect [] [8; 16; 24]; AfterGc; Collect [] [];
   Cons 24 (Sym 5) (Sym 0); Record_ true (Ptr 24) (file 2 9) 0; Cons 8 (Ptr 24) (Sym 0); Collect [8; 24] []].
Example history_ok :
  match steps start (firstn 5 history), steps start history with
  | Some s1, Some s2 =>
    (lexical_origin 20 s1 (Ptr 24), lexical_origin 20 s1 (Ptr 16), lexical_origin 20 s1 (Ptr 8), lexical_origin 20 s2 (Ptr 8))
    = (Some (Some (1, 2%Z)), Some (Some (1, 3%Z)), Some (Some (1, 3%Z)), Some (Some (2, 9%Z)))
  | _, _ => False
  end.
Proof. vm_compute. reflexivity. Qed.
Example history_form : exists s, steps start history = Some s /\
  is_form s (Ptr 8) (FCons 8 (FCons 24 (FSym 5) (FSym 0)) (FSym 0)).
Proof. destruct (steps start history) eqn:E; [|vm_compute in E; discriminate]. vm_compute in E. inversion E. eexists. split; [reflexivity|]. cbn. auto 10. Qed.

(** No origin is kept for good: once the forms that are gone have been taken out,
    each item belongs to a form that is still watched and still there. *)
Theorem C73_no_stale : forall l s i p o, steps start l = Some s -> inaccessible s = [] ->
  In (p, o) (buckets s i) -> In p (accessible s) /\ used s p = true /\ find_item (buckets s (hash p)) p <> None.
Proof.
  intros l s i p o R E I. pose proof (inv_steps l _ _ _ inv_start R) as V.
  destruct (items _ _ V i p o I) as (-> & [J|J]); [|rewrite E in J; contradiction].
  split; auto. split; [exact (watched _ _ V p (or_introl J))|].
  clear - I. induction (buckets s (hash p)) as [|[q x] b IH]; [contradiction|]. cbn.
  destruct (Nat.eqb_spec q p); [discriminate|]. destruct I as [I|I]; [inversion I; congruence|auto].
Qed.
Print Assumptions C73_no_stale.
