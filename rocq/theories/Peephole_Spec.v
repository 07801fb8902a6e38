(** What it means for the optimiser to keep the meaning of a program. *)
From Coq Require Import List Arith Bool ZArith.
From Verif Require Import Peephole_Model.
Import ListNotations.

Section Keeps.
Variable S : sem.
Variable lax : bool.

(** program [c], started in [s], ends with [o] *)
Definition behaves (c : code) (s : st S) (o : out S) : Prop :=
  exists fuel, run S lax fuel c c s = Some o.

(** the state at the beginning of a function: no error handlers of its own *)
Definition start (s : st S) : Prop :=
  Forall (fun f => match f with Hd _ _ => False | Fr _ _ => True end) (frs s).

(** [c2] does what [c1] does whenever that is defined: it ends with the same
    value, or error, and the same state of the world, or like [c1] does not
    end *)
Definition keeps (c1 c2 : code) : Prop :=
  forall s, start s -> ~ behaves c1 s Stuck ->
  forall o, behaves c1 s o <-> behaves c2 s o.

End Keeps.

(** no label is defined twice *)
Definition well_formed (c : code) : Prop := NoDup (labels c).

(** strings among the parts of a constant *)
Fixpoint has_str (v : val) : bool :=
  match v with
  | Str _ _ => true
  | Pair a d => has_str a || has_str d
  | _ => false
  end.

Definition count (c : nat) (l : list nat) : nat :=
  length (filter (Nat.eqb c) l).

(** instructions that can raise an error and are thrown away when their value
    is not used *)
Definition may_fail (i : insn) : bool :=
  match i with
  | Refg _ | Add | Sub | Inc | Dec | Un _ | Bi _ => true
  | _ => false
  end.

(** Which applications of which rewrite are correct.  [lax]: programs whose
    side-effect-free instructions never fail. *)
Definition allowed (lax : bool) (n : nat) (h : heap) (pre rest : code) : bool :=
  match n with
  | 1 => (* a deleted instruction that could raise an error *)
      match rest with I i :: _ => lax || negb (may_fail i) | _ => true end
  | 6 => (* refg x; setg x *)
      match rest with I (Refg _) :: _ => false | _ => true end
  | 8 => (* test-scm; scm-test whose value is only tested *)
      match rest with
      | I TestScm :: _ :: J Jn _ :: _ | I TestScm :: _ :: J Jt _ :: _ => true
      | _ => false
      end
  | 10 => (* push 0; add *) lax
  | 31 =>
      match rest with
      | J k c :: _ =>
          (* the operand cell belongs to one jump only *)
          (count c (cells (full pre rest)) =? 1) &&
          (* not jtp X; ... X: jpn Y *)
          match k, find (h c) (full pre rest) with
          | Jtp, Some (J Jpn _ :: _) => false
          | _, _ => true
          end
      | _ => true
      end
  | 33 | 34 => (* equal constants that are not the same object *)
      match rest with I (Push v) :: _ => negb (has_str v) | _ => true end
  | _ => true
  end.

(** what the instructions that are moved across [unbind] compute does not
    depend on the bindings that are undone *)
Definition binding_free (S : sem) : Prop :=
  (forall k u w x, unT S k (undo S u w) x = unT S k w x) /\
  (forall k u w x y, biT S k (undo S u w) x y = biT S k w x y).

(** every rewrite applied in a run of the optimiser is allowed *)
Fixpoint loop_allowed (lax : bool) (fuel : nat) (h : heap) (pre rest : code)
  (kg : bool) : bool :=
  match fuel with
  | O => true
  | Datatypes.S fuel =>
      match rest with
      | [] => if kg then loop_allowed lax fuel h [] (rev pre) false else true
      | _ =>
          match rules h pre rest with
          | (_, NoMatch) =>
              let '(p, r) := shift pre rest in loop_allowed lax fuel h p r kg
          | (_, OptError) => true
          | (n, Upd h' pre' rest' b) =>
              let '(p, r) := shift pre' rest' in
              allowed lax n h pre rest && loop_allowed lax fuel h' p r (kg || b)
          end
      end
  end.
Fixpoint last_allowed (lax : bool) (fuel : nat) (h : heap) (pre rest : code) : bool :=
  match fuel with
  | O => true
  | Datatypes.S fuel =>
      match rest with
      | [] => true
      | _ =>
          match last_rules h pre rest with
          | (n, Upd h' pre' rest' _) =>
              let '(p, r) := shift pre' rest' in
              allowed lax n h pre rest && last_allowed lax fuel h' p r
          | _ => let '(p, r) := shift pre rest in last_allowed lax fuel h p r
          end
      end
  end.
Definition run_allowed (lax : bool) (fuel : nat) (h : heap) (c : code) : bool :=
  loop_allowed lax fuel h [] c false &&
  match loop fuel h [] c false with
  | Result h c => last_allowed lax fuel h [] c
  | _ => true
  end.

(** The optimised program, from the same state, ends in a different way.
    Programs end in one way only ([C27_deterministic]). *)
Definition miscompiled (S : sem) (h : heap) (c : code) : Prop :=
  well_formed c /\
  exists fuel h' c' s o o',
    optimize fuel h c = Result h' c' /\ start S s /\
    behaves S false (resolve h c) s o /\ o <> Stuck /\
    behaves S false (resolve h' c') s o' /\ o <> o'.

(** A machine with two kinds of opaque instructions: [Other k] leaves the
    number [k]; [Un 0] is neg.  The world is the list of the global
    assignments made; globals 0-9 are void until set. *)
Definition machine : sem := {|
  W := list (nat * val);
  getg := fun w n =>
    (fix look (w : list (nat * val)) := match w with
       | [] => None
       | (m, v) :: w => if n =? m then Some v else look w
       end) w;
  setg := fun w n v => (n, v) :: w;
  undo := fun u w => (u, Nil) :: w;
  unT := fun _ _ x => boolv (nilp x);
  biT := fun _ _ x y => boolv (equalv x y);
  un := fun _ _ x => match x with Num z => Some (Num (- z)) | _ => None end;
  bi := fun _ _ x y => match x, y with Num a, Num b => Some (Num (a * b)) | _, _ => None end;
  other := fun k stk ev sl w => ONext (Num (Z.of_nat k) :: stk) ev sl w []
|}.

(** Programs all of whose rewrites are correct: no conditional jumps, no
    string constants, no [setg] and no [scm-test]; with [lax = false] no
    instruction that can fail and be thrown away *)
Definition plain (lax : bool) (i : item) : bool :=
  match i with
  | Lbl _ => true
  | J k _ => negb (cond_jmp k)
  | I (Push v) => negb (has_str v)
  | I (Setg _) | I ScmTest => false
  | I i => lax || negb (may_fail i)
  end.
