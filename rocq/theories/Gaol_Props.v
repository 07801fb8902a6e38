(** Special variables and untrusted code. *)
From Coq Require Import List ZArith Bool Lia PeanoNat.
Import ListNotations.
From Verif Require Import Gaol_Model Gaol_Spec Gaol_Proofs Gaol_Secret.

Section Theorems.
  Variable imports : id -> sym -> option Z.
  Variable set_binds : id -> bool.
  Variable user : option id.
  Variable autoload : Z -> bool.
  Notation run := (run imports set_binds user autoload).

  (** Code in structures whose special environments lack a variable that trusted code has declared cannot change
      that variable: not its value, its dynamic bindings, its flags or its properties. *)
Theorem C85_integrity x (ok : id -> Prop) p i st :
    trusted x st -> ok i -> (forall j, ok j -> outside x j st) -> confined ok p ->
    same_variable x st (fst (run i st p)).
  Proof. intros T I O C. exact (proj1 (integrity imports set_binds user autoload x ok p i st T I O C)). Qed.

  (** Nor does it learn its value: whatever it computes and leaves behind is the same for every value. *)
Theorem C85_secret_partial x (ok : id -> Prop) p i s1 s2 :
    trusted x s1 -> ok i -> (forall j, ok j -> outside x j s1) -> confined ok p -> alike x s1 s2 ->
    snd (run i s1 p) = snd (run i s2 p) /\ alike x (fst (run i s1 p)) (fst (run i s2 p)).
  Proof. intros T I O C A. destruct (secret imports set_binds user autoload x ok p i s1 s2 T I O C A) as [B E]. split; assumption. Qed.

  (** No code at all, trusted code included, undoes the protection. *)
Theorem C85_lasting x p i st :
    trusted x st -> trusted x (fst (run i st p)) /\ forall j, outside x j st -> outside x j (fst (run i st p)).
  Proof. intros T. destruct (lasting imports set_binds user autoload x p i st T) as (A & B & _). split; [apply A; exact T|exact B]. Qed.

  (** The bindings of other structures than its own and the user's stay as they are. *)
Theorem C85_modules_partial (ok : id -> Prop) p i st j y :
    ok i -> confined ok p -> ~ ok j -> user <> Some j -> own (fst (run i st p)) j y = own st j y.
  Proof. intros I C NO NU. exact (modules imports set_binds user autoload ok p j y NO NU i st I C). Qed.

  (** A variable nobody has can be declared in restricted code and is then usable there and nowhere else
      that is restricted. *)
Theorem C85_own_variable i st x v :
    restricted i st -> outside x i st -> special (flag st x) = false -> defvard (flag st x) = false -> weak_mod (flag st x) = false ->
    (forall j, structure_ref imports st j x = None) -> bindings_of x st = [] ->
    let st' := fst (step imports set_binds user autoload st i (Defvar x v)) in
    symbol_value imports st' i x = Some v /\ (forall w, exists st'', do_set set_binds st' i x (Some w) = Some st'' /\ symbol_value imports st'' i x = Some w) /\
    forall j, j <> i -> outside x j st -> symbol_value imports st' j x = None /\ forall w, do_set set_binds st' j x w = None.
  Proof.
    intros (l & L) O F1 F2 F3 NR B. assert (NB := no_binding x st B). apply search_outside in O. cbn [step].
    assert (D : defvar imports set_binds user autoload st i x v =
      (set_env (set_flag (set_special st x (Some v)) x {| special := true; weak := true; weak_mod := false; defvard := true |}) i (Only (x :: l)), Set_ok)).
    { unfold defvar, default_boundp. rewrite F1, NR. cbn [is_some]. rewrite O, F1, F2. cbn [andb]. assert (G : get_initial imports user st x = None) by (unfold get_initial; destruct user; [rewrite NR|]; reflexivity). rewrite G. cbn [negb orb]. cbn [env set_flag set_special]. rewrite L, F3. reflexivity. }
    rewrite D. cbn [fst]. set (s := set_env _ _ _). assert (SE : search s i x = Listed) by (unfold search, s; cbn; rewrite upd_same; cbn [existsb]; rewrite Nat.eqb_refl; reflexivity).
    assert (FL : flag s x = {| special := true; weak := true; weak_mod := false; defvard := true |}) by (unfold s; cbn; apply upd_same).
    split; [unfold symbol_value; rewrite FL, SE; cbn; unfold special_value; cbn; rewrite NB, upd_same; reflexivity|]. split.
    - intros w. exists (set_special s x (Some w)). split; [unfold do_set, set_special_value; rewrite FL, SE; cbn; rewrite NB; reflexivity|].
      unfold symbol_value. cbn [flag set_special]. rewrite FL. cbn [special weak_mod]. change (search (set_special s x (Some w)) i x) with (search s i x). rewrite SE. unfold special_value. cbn. rewrite NB, upd_same. reflexivity.
    - intros j Nj Oj. assert (SJ : search s j x = Unlisted) by (apply search_outside in Oj; unfold search in *; unfold s; cbn; rewrite upd_other by exact Nj; exact Oj). split; [unfold symbol_value|intros w; unfold do_set]; rewrite FL, SJ; reflexivity.
  Qed.

  (** Where trusted code declares such a variable, its value counts, and restricted code that does not bind
      the variable can neither read it nor change it from then on. *)
Theorem C85_reclaimed_partial t st x v (ok : id -> Prop) p i :
    env st t = All -> special (flag st x) = true -> weak (flag st x) = true -> weak_mod (flag st x) = false -> bindings_of x st = [] ->
    (match specials st x with Some w => autoload w = false | None => True end) ->
    let st1 := fst (step imports set_binds user autoload st t (Defvar x v)) in
    ok i -> (forall j, ok j -> restricted j st) -> confined ok p -> no_let x p ->
    symbol_value imports st1 t x = Some v /\
    symbol_value imports (fst (run i st1 p)) t x = Some v /\
    forall j, restricted j st -> symbol_value imports (fst (run i st1 p)) j x = None.
  Proof.
    intros E F1 F2 F3 B AU. assert (NB := no_binding x st B). assert (SE : search st t x = Anything) by (unfold search; rewrite E; reflexivity).
    assert (D : fst (defvar imports set_binds user autoload st t x v) = set_flag (set_special st x (Some v)) x {| special := true; weak := false; weak_mod := true; defvard := true |} \/
                fst (defvar imports set_binds user autoload st t x v) = set_flag (set_special (set_special st x None) x (Some v)) x {| special := true; weak := false; weak_mod := true; defvard := true |}).
    { left. unfold defvar, default_boundp, symbol_value, special_value. rewrite F1, NB, SE. destruct (specials st x) as [w|] eqn:V; cbn [is_some].
      - rewrite AU, SE, F1, F2, F3. cbn [negb orb andb]. rewrite E. reflexivity.
      - rewrite SE, F1, F2. cbn [negb orb andb]. rewrite E. reflexivity. }
    intros st1 I O C NL. assert (R : reclaimed x v st1 /\ (forall j, env st1 j = env st j)).
    { unfold st1. cbn [step]. destruct D as [D|D]; rewrite D; (split; [|reflexivity]); unfold reclaimed; cbn [flag set_flag specials set_special]; rewrite !upd_same; repeat split; assumption. }
    destruct R as [R EJ]. assert (O' : forall j, ok j -> restricted j st1) by (intros j Oj; unfold restricted; rewrite EJ; exact (O j Oj)).
    destruct (rec_run imports set_binds user autoload x v ok p i st1 R I O' C NL) as (R2 & K & _).
    assert (VAL : forall s, reclaimed x v s -> env s t = All -> symbol_value imports s t x = Some v).
    { intros s (G1 & _ & _ & _ & G5 & G6) Es. unfold symbol_value, special_value, search. rewrite G1, Es, (no_binding x s G6). exact G5. }
    split; [apply VAL; [exact R|rewrite EJ; exact E]|]. split; [apply VAL; [exact R2|apply K; rewrite EJ; exact E]|].
    intros j Rj. assert (Rj1 : restricted j st1) by (unfold restricted; rewrite EJ; exact Rj). apply K in Rj1. destruct Rj1 as (l & L). destruct R2 as (G1 & _ & _ & G4 & _).
    unfold symbol_value, search. rewrite G1, L, G4. destruct (existsb (Nat.eqb x) l); reflexivity.
  Qed.
End Theorems.
Print Assumptions C85_integrity.
Print Assumptions C85_secret_partial.
Print Assumptions C85_lasting.
Print Assumptions C85_modules_partial.
Print Assumptions C85_own_variable.
Print Assumptions C85_reclaimed_partial.

(** Structure 0 is trusted code, 1 a gaol with the list (5), 2 the user's; 7 is a trusted declared variable of value 70,
    8 a special variable not declared by defvar, 9 a binding of structure 0, 5 in the list. *)
Definition plainf := {| special := false; weak := false; weak_mod := false; defvard := false |}.
Definition start : state := {|
  flag := fun x => if Nat.eqb x 7 || Nat.eqb x 5 then {| special := true; weak := false; weak_mod := false; defvard := true |}
                   else if Nat.eqb x 8 then {| special := true; weak := false; weak_mod := false; defvard := false |} else plainf;
  specials := fun x => if Nat.eqb x 7 then Some 70%Z else if Nat.eqb x 8 then Some 80%Z else if Nat.eqb x 5 then Some 50%Z else None;
  bound := [(7, Some 71%Z)];
  own := fun i x => if Nat.eqb i 0 && Nat.eqb x 9 then Some 90%Z else None;
  env := fun i => if Nat.eqb i 1 then Only [5] else All;
  plist := fun x => if Nat.eqb x 7 then [(1, 2)%Z] else [] |}.
Definition no_imports : id -> sym -> option Z := fun _ _ => None.
Definition never : Z -> bool := fun _ => false.
Definition go := run no_imports (fun _ => true) (Some 2) never.

(** An attempt at everything, ending with the answer of the last *)
Definition attack : prog :=
  Do (Defvar 7 1) (fun _ => Do (Set_ 7 1) (fun _ => Let 7 1 (Return Set_ok) (fun _ => Do (Put 7 1 1) (fun _ => Do (Makunbound 7) (fun _ => Do (Set_ 5 1) (fun _ => Do (Symbol_value 7) Return)))))).
Example attack_start : trusted 7 start /\ (forall j, j = 1 -> outside 7 j start) /\ confined (fun j => j = 1) attack.
Proof. split; [repeat split|]. split; [intros j ->; exists [5]; split; [reflexivity|intros [E|[]]; discriminate]|]. cbn. intuition. Qed.
Example attack_fails : snd (go 1 start attack) = Error /\ symbol_value no_imports (fst (go 1 start attack)) 0 7 = Some 71%Z /\ symbol_value no_imports (fst (go 1 start attack)) 0 5 = Some 1%Z.
Proof. repeat split; vm_compute; reflexivity. Qed.
Example start_alike : alike 7 start (set_special start 7 (Some 99%Z)).
Proof.
  repeat split; auto.
  - intros y N. cbn. rewrite upd_other by exact N. reflexivity.
  - exists 70%Z, 99%Z. split; reflexivity.
  - cbn. constructor; [|constructor]. split; [reflexivity|]. split; [reflexivity|]. intros _. exists 71%Z, 71%Z. split; reflexivity.
Qed.
Example own_case : restricted 1 start /\ outside 10 1 start /\ special (flag start 10) = false /\ (forall j, structure_ref no_imports start j 10 = None) /\ bindings_of 10 start = [].
Proof.
  split; [exists [5]; reflexivity|]. split; [exists [5]; split; [reflexivity|intros [E|[]]; discriminate]|]. repeat split. intros j. unfold structure_ref. cbn. destruct (Nat.eqb j 0); reflexivity.
Qed.

(** Variables that are not special are not protected: restricted code declares them special and sets them. *)
Theorem C85_takeover_refuted : exists st p x v, restricted 1 st /\ env st 0 = All /\ confined (fun j => j = 1) p /\
  own st 0 x = Some v /\ symbol_value no_imports st 0 x = Some v /\ symbol_value no_imports (fst (go 1 st p)) 0 x <> Some v.
Proof.
  exists start, (Do (Defvar 9 66) Return), 9, 90%Z. split; [exists [5]; reflexivity|]. split; [reflexivity|]. split; [cbn; auto|]. split; [reflexivity|]. split; [reflexivity|]. vm_compute. discriminate.
Qed.
Print Assumptions C85_takeover_refuted.

(** Nor are those made special otherwise than by defvar (by add-hook, and by compiled code whose defvar is not at top level). *)
Theorem C85_undeclared_refuted : exists st p x v, outside x 1 st /\ confined (fun j => j = 1) p /\
  special (flag st x) = true /\ symbol_value no_imports st 0 x = Some v /\ symbol_value no_imports (fst (go 1 st p)) 0 x <> Some v.
Proof.
  exists start, (Do (Defvar 8 66) (fun _ => Do (Set_ 8 66) Return)), 8, 80%Z. split; [exists [5]; split; [reflexivity|intros [E|[]]; discriminate]|]. split; [cbn; auto|]. split; [reflexivity|]. split; [reflexivity|]. vm_compute. discriminate.
Qed.
Print Assumptions C85_undeclared_refuted.

(** The variable with the value of restricted code keeps it when compiled trusted code declares it. *)
Theorem C85_compiled_refuted : exists st p x v w, confined (fun j => j = 1) p /\ v <> w /\
  let st1 := fst (go 1 st p) in
  symbol_value no_imports (fst (go 0 st1 (Do (Defvar x v) Return))) 0 x = Some v /\
  symbol_value no_imports (fst (go 0 st1 (compiled_defvar x v Return))) 0 x = Some w.
Proof. exists start, (Do (Defvar 10 66) Return), 10, 1%Z, 66%Z. split; [cbn; auto|]. split; [discriminate|]. split; vm_compute; reflexivity. Qed.
Print Assumptions C85_compiled_refuted.

(** A variable that trusted code has reclaimed is still bound by let in restricted code, and trusted functions
    called inside see that value. *)
Theorem C85_let_refuted : exists st p x v, restricted 1 st /\ weak_mod (flag st x) = true /\ weak (flag st x) = false /\ defvard (flag st x) = true /\
  symbol_value no_imports st 0 x = Some v /\ symbol_value no_imports st 1 x = None /\
  exists w, w <> v /\ p = Let x w (Call 0 (Do (Symbol_value x) Return) Return) Return /\ snd (go 1 st p) = Value w.
Proof.
  exists (fst (go 0 (fst (go 1 start (Do (Defvar 10 66) Return))) (Do (Defvar 10 1) Return))), (Let 10 66 (Call 0 (Do (Symbol_value 10) Return) Return) Return), 10, 1%Z.
  split; [exists [10; 5]; vm_compute; reflexivity|]. repeat (split; [vm_compute; reflexivity|]). exists 66%Z. split; [discriminate|]. split; [reflexivity|]. vm_compute. reflexivity.
Qed.
Print Assumptions C85_let_refuted.

(** default-boundp tells whether a variable outside has a value. *)
Theorem C85_boundp_refuted : exists s1 s2 p x, trusted x s1 /\ outside x 1 s1 /\ confined (fun j => j = 1) p /\ s2 = set_special s1 x None /\ snd (go 1 s1 p) <> snd (go 1 s2 p).
Proof.
  exists (set_bound start []), (set_special (set_bound start []) 7 None), (Do (Default_boundp 7) Return), 7. split; [repeat split|]. split; [exists [5]; split; [reflexivity|intros [E|[]]; discriminate]|]. split; [cbn; auto|]. split; [reflexivity|]. vm_compute. discriminate.
Qed.
Print Assumptions C85_boundp_refuted.

(** symbol-plist refuses the properties of such a variable, get tells them. *)
Theorem C85_get_refuted : exists st x p v, trusted x st /\ outside x 1 st /\ snd (go 1 st (Do (Symbol_plist x) Return)) = Error /\ snd (go 1 st (Do (Get x p) Return)) = Property (Some v).
Proof. exists start, 7, 1%Z, 2%Z. split; [repeat split|]. split; [exists [5]; split; [reflexivity|intros [E|[]]; discriminate]|]. split; vm_compute; reflexivity. Qed.
Print Assumptions C85_get_refuted.
