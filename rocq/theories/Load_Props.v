(** C78: which file [load] takes, and what is called after it was loaded. *)

From Coq Require Import String List ZArith Bool Permutation.
Import ListNotations.
Local Open Scope string_scope.
Require Import Verif.Load_Model Verif.Load_Spec Verif.Load_Proofs.

(** For all file systems, paths, suffixes and flags: the first directory with
    a candidate decides, in it the compiled file unless the source is newer;
    libraries only when no directory of load-path has a candidate *)
Theorem C78_search readable modtime expand interp no_suffix sfx load_path dl_load_path file :
  let lisp := chosen_in readable modtime (compiled expand interp no_suffix sfx file) (source expand no_suffix sfx file) in
  let no_lisp := none_in readable (compiled expand interp no_suffix sfx file) (source expand no_suffix sfx file) in
  let lib := chosen_in readable modtime (shared_object expand file) (shared_lib expand file) in
  let no_lib := none_in readable (shared_object expand file) (shared_lib expand file) in
  forall (no_path : bool) r,
  let p := if no_path then [Some ""] else load_path in
  let q := if no_path then [Some ""] else dl_load_path in
  load_search readable modtime expand interp no_suffix no_path sfx load_path dl_load_path file = r <->
  match r with
  | Lisp n => lisp p n
  | Library n => no_lisp p /\ lib q n
  | Missing => no_lisp p /\ no_lib q
  end.
Proof.
  cbv zeta. intros no_path r. unfold load_search.
  set (p := if no_path then [Some ""] else load_path). set (q := if no_path then [Some ""] else dl_load_path).
  assert (D : dead readable None) by (intros x; discriminate).
  assert (L := lisp_path_ok readable modtime expand interp no_suffix sfx file p None D).
  assert (Q := dl_path_ok readable modtime expand file q).
  destruct (lisp_path _ _ _ _ _ _ _ p None) as [n|].
  - assert (C := proj2 (L n) eq_refl). destruct r as [m|m|].
    + rewrite L. split; intros H; [injection H as <-; reflexivity|subst; reflexivity].
    + split; [discriminate|]. intros [H _]. exfalso. eapply chosen_not_none; eauto.
    + split; [discriminate|]. intros [H _]. exfalso. eapply chosen_not_none; eauto.
  - destruct (dl_path _ _ _ file q) as [n|].
    + assert (C := proj2 (Q n) eq_refl). destruct r as [m|m|].
      * split; [discriminate|]. intros H. exfalso. eapply chosen_not_none; eauto.
      * rewrite Q. split; intros H; [injection H as <-; auto|destruct H as [_ H]; subst; reflexivity].
      * split; [discriminate|]. intros [_ H]. exfalso. eapply chosen_not_none; eauto.
    + destruct r as [m|m|].
      * split; [discriminate|]. intros H. exfalso. eapply chosen_not_none; eauto.
      * split; [discriminate|]. intros [_ H]. exfalso. eapply chosen_not_none; eauto.
      * split; auto.
Qed.
Print Assumptions C78_search.

(** The documentation: "finally tries FILE without modification".  FILE is in
    the path, and is not loaded *)
Theorem C78_plain_file_refuted : exists readable modtime expand load_path file d,
  In (Some d) load_path /\ readable (expand file d) = true /\
  load_search readable modtime expand false false false default_suffixes load_path [] file = Missing.
Proof.
  exists (String.eqb "./x.lisp"), (fun _ => 0%Z), (fun f d => d ++ "/" ++ f), [Some "/usr"; Some "."], "x.lisp", ".".
  split; [right; left; reflexivity|]. split; vm_compute; reflexivity.
Qed.
Print Assumptions C78_plain_file_refuted.

(** Two directories: the second has a newer source, the first decides *)
Definition demo_fs (n : string) : bool := existsb (String.eqb n) ["/a/x.jl"; "/a/x.jlc"; "/b/x.jl"; "/l/libx.so"].
Definition demo_time (n : string) : Z := if String.eqb n "/b/x.jl" then 9%Z else if String.eqb n "/a/x.jl" then 5%Z else 4%Z.
Definition demo_expand (f d : string) : string := d ++ "/" ++ f.
Definition demo_search p f := load_search demo_fs demo_time demo_expand false false false default_suffixes p [Some "/l"] f.
Example C78_search_ex :
  demo_search [Some "/c"; None; Some "/a"; Some "/b"] "x" = Lisp "/a/x.jl" /\
  demo_search [Some "/c"; Some "/b"; Some "/a"] "x" = Lisp "/b/x.jl" /\
  demo_search [Some "/c"] "x" = Library "/l/libx.so" /\
  demo_search [Some "/c"] "y" = Missing.
Proof. vm_compute. auto. Qed.

(** What is registered for a library is called once, after it is loaded; what
    is registered for others stays registered.  The calls may register more *)
Theorem C78_after_load effect fails fuel file al calls i al' :
  one_entry al -> after_load effect fails fuel file false al = Some (calls, i, al') ->
  Forall (fun t => fails t = false) calls ->
  (forall t, ~ In (file, t) (pending al')) /\ one_entry al' /\
  Permutation (map (pair file) calls ++ pending al')%list (pending al ++ flat_map effect calls)%list.
Proof. intros N H F. destruct (after_load_ok _ _ _ _ _ _ _ _ H F N) as (_ & A & B & C). auto. Qed.
Print Assumptions C78_after_load.

(** It comes to an end if no call registers for the library itself *)
Theorem C78_after_load_ends effect fails file al : one_entry al ->
  (forall t, In (file, t) (pending al) -> forall x, In x (effect t) -> fst x <> file) ->
  exists fuel r, after_load effect fails fuel file false al = Some r.
Proof.
  intros N D. exists 2. assert (H := after_load_ends effect fails file al N D).
  destruct (after_load effect fails 2 file false al) as [r|]; [eauto|contradiction].
Qed.
Print Assumptions C78_after_load_ends.

(** The last registered is the first called *)
Theorem C78_order effect fails fuel file regs calls i al' :
  after_load effect fails fuel file false (register_all regs []) = Some (calls, i, al') ->
  Forall (fun t => fails t = false) calls ->
  exists later, calls = (rev (map snd (filter (fun x => String.eqb file (fst x)) regs)) ++ later)%list.
Proof.
  intros H F. assert (O := assoc_order file regs []). cbn [assoc] in O. rewrite app_nil_r in O.
  destruct fuel as [|fuel]; cbn [after_load] in H; [discriminate|].
  destruct (assoc file (register_all regs [])) as [ts|].
  - destruct (call_all effect fails ts false (delete file (register_all regs []))) as [[c i1] al1] eqn:E.
    destruct (after_load effect fails fuel file i1 al1) as [[[c2 i2] al2]|]; [|discriminate].
    injection H as <- _ _. apply Forall_app in F as [F1 F2].
    assert (N : one_entry (delete file (register_all regs []))) by (apply names_delete, names_all; constructor).
    destruct (call_all_ok _ _ _ _ _ _ _ E F1 N) as (-> & _). rewrite O. eauto.
  - injection H as <- _ _. rewrite <- O. exists []. reflexivity.
Qed.
Print Assumptions C78_order.

(** An error in one of the calls: those after it are neither called nor
    registered any more *)
Theorem C78_failing_call_refuted : exists effect fails file al t,
  one_entry al /\ In (file, t) (pending al) /\
  forall fuel calls i al', after_load effect fails fuel file false al = Some (calls, i, al') ->
    ~ In t calls /\ pending al' = [].
Proof.
  exists (fun _ => []), (Nat.eqb 1), "lib", [("lib", [1; 2])], 2.
  split; [repeat constructor; intros []|]. split; [right; left; reflexivity|].
  intros [|[|fuel]] calls i al' H; cbn in H; [discriminate|discriminate|].
  injection H as <- _ <-. split; [|reflexivity]. intros [E|[]]; discriminate.
Qed.
Print Assumptions C78_failing_call_refuted.

(** Without such a call: three registrations for two libraries, one of the
    calls registers again *)
Definition demo_effect (t : nat) : list (string * nat) := match t with 1 => [("lib", 7); ("other", 8)] | _ => [] end.
Example C78_after_load_ex :
  after_load demo_effect (fun _ => false) 9 "lib" false (register_all [("lib", 1); ("other", 2); ("lib", 3)] []) =
  Some ([3; 1; 7], false, [("other", [8; 2])]).
Proof. reflexivity. Qed.
