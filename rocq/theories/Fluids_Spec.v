(* What dynamic binding is to do, by keeping only the present value of each variable: a
   binding remembers the value there was, and puts it back when it ends, however it ends. *)
From Coq Require Import ZArith List Bool.
Import ListNotations.
From Verif Require Import Fluids_Model.
Open Scope Z_scope.

Definition vals := nat -> Z.
Definition set (g : vals) (x : nat) (v : Z) : vals := fun y => if Nat.eqb y x then v else g y.
Fixpoint bind (g : vals) (l : list (nat * Z)) : vals :=
  match l with
  | [] => g
  | (x, v) :: r => bind (set g x v) r
  end.
(* the variables l as they were in g, others as they are in g' *)
Definition restore (l : list (nat * Z)) (g g' : vals) : vals :=
  fun x => if existsb (fun p => Nat.eqb (fst p) x) l then g x else g' x.

(* Arguments of with-fluids: all fluids (Some), or the first is not one.  The error for others is
   signalled in the midst of binding: C24_with_fluids_refuted. *)
Fixpoint fluids (fs : list (option nat)) (vs : list Z) : option (list (nat * Z)) :=
  match fs, vs with
  | [], [] => Some []
  | Some f :: fs, v :: vs => match fluids fs vs with Some l => Some ((f, v) :: l) | None => None end
  | _, _ => None
  end.
Definition specials (ps : list (bool * nat * Z)) : list (nat * Z) :=
  map (fun p => (snd (fst p), snd p)) (filter (fun p => fst (fst p)) ps).
Definition lexicals (ps : list (bool * nat * Z)) : nat := length (filter (fun p => negb (fst (fst p))) ps).
(* a frame can have that many: C24_frame_refuted *)
Definition fits (lex spec : nat) : bool := (Z.of_nat lex <? 65536) && (Z.of_nat spec <? 2147483648).

(* a frame: how many lexicals, and the values to put back, the latest first *)
Inductive sitem := SFrame (lex : nat) (saved : list (nat * Z)) | SHandler (h : Z -> vm).
Definition undo (g : vals) (saved : list (nat * Z)) : vals := bind g saved.
Fixpoint undo_all (g : vals) (fr : list sitem) : vals :=
  match fr with
  | [] => g
  | SFrame _ sv :: r => undo_all (undo g sv) r
  | SHandler _ :: r => undo_all g r
  end.
Fixpoint to_handler (g : vals) (fr : list sitem) : vals * option ((Z -> vm) * list sitem) :=
  match fr with
  | [] => (g, None)
  | SFrame _ sv :: r => to_handler (undo g sv) r
  | SHandler h :: r => (g, Some (h, r))
  end.
Fixpoint first_frame (fr : list sitem) : option sitem :=
  match fr with
  | [] => None
  | [SFrame a b] => Some (SFrame a b)
  | [SHandler _] => None
  | _ :: r => first_frame r
  end.

(* None: the program is given no meaning (see fluids and fits; or the instructions remove or use
   frames that are not there), or n is too small *)
Fixpoint srun (n : nat) (g : vals) (p : prog) {struct n} : option (vals * result) :=
  match n with
  | O => None
  | S n =>
    let next o f (k : result -> prog) := match o with
      | Some (g', Esc l v) => Some (f g' : vals, Esc l v)
      | Some (g', r) => srun n (f g') (k r)
      | None => None
      end in
    match p with
    | Done r => Some (g, r)
    | Get x k => srun n g (k (g x))
    | Put x v k => srun n (set g x v) k
    | With fs vs thunk k =>
      if Nat.eqb (length fs) (length vs) then
        match fs with
        | None :: _ => srun n g (k (Throw bad_arg))
        | _ =>
          match fluids fs vs with
          | Some l => next (srun n (bind g l) thunk) (restore l g) k
          | None => None
          end
        end
      else srun n g (k (Throw bad_arg))
    | Lambda _ ps body k =>
      if fits (lexicals ps) (length (specials ps)) then next (srun n (bind g (specials ps)) body) (restore (specials ps) g) k else None
    | CallCC l body k =>
      match srun n g body with
      | Some (g', Esc m v) => if Nat.eqb l m then srun n g' (k (Val v)) else Some (g', Esc m v)
      | Some (g', r) => srun n g' (k r)
      | None => None
      end
    | Code _ c k => next (vsrun n g [SFrame 0 []] c) (fun g => g) k
    end
  end
with vsrun (n : nat) (g : vals) (fr : list sitem) (c : vm) {struct n} : option (vals * result) :=
  match n with
  | O => None
  | S n =>
    let error g v := match to_handler g fr with
      | (g, None) => Some (g, Throw v)
      | (g, Some (h, fr)) => vsrun n g fr (h v)
      end in
    let next o (k : vals -> Z -> option (vals * result)) := match o with
      | Some (g, Val v) => k g v
      | Some (g, Throw v) => error g v
      | Some (g, Esc l v) => Some (undo_all g fr, Esc l v)
      | None => None
      end in
    match c with
    | Do p k => next (srun n g p) (fun g v => vsrun n g fr (k v))
    | Init c => vsrun n g (SFrame 0 [] :: fr) c
    | Bind c =>
      match fr with
      | SFrame a sv :: r => if fits (S a) (length sv) then vsrun n g (SFrame (S a) sv :: r) c else None
      | _ => None
      end
    | Spec x v c | Fluid x v c =>
      match fr with
      | SFrame a sv :: r => if fits a (S (length sv)) then vsrun n (set g x v) (SFrame a ((x, g x) :: sv) :: r) c else None
      | _ => None
      end
    | Unbind c =>
      match fr with
      | SFrame _ sv :: r => vsrun n (undo g sv) r c
      | SHandler _ :: r => vsrun n g r c
      | [] => None
      end
    | UnbindAll c =>
      match first_frame fr with
      | Some f => vsrun n (undo_all g (removelast fr)) [f] c
      | None => None
      end
    | UnbindAll0 c => vsrun n (undo_all g fr) [] c
    | BindErr h c => vsrun n g (SHandler h :: fr) c
    | Raise v => error g v
    | Return v => Some (undo_all g fr, Val v)
    | Call _ c k => next (vsrun n g [SFrame 0 []] c) (fun g v => vsrun n g fr (k v))
    | Tail _ c => next (vsrun n g [SFrame 0 []] c) (fun g v => Some (undo_all g fr, Val v))
    end
  end.

(* the cells of the bindings are distinct, as each is allocated when its binding is made *)
Definition wf (s : st) : Prop := NoDup (map snd (spec s)) /\ forall a, In a (map snd (spec s)) -> (a < nxt s)%nat.
(* the program returned or threw, rather than left by a continuation *)
Definition finished (r : result) : Prop := match r with Esc _ _ => False | _ => True end.

(* a loop of k tail calls, each in a function that has a lexical variable and read x; it can have had
   an exception handler before *)
Fixpoint loop (handler : bool) (x k : nat) : vm :=
  match k with
  | O => Return 0
  | S k =>
    let rest := Init (Bind (Do (Get x (fun v => Done (Val v))) (fun _ => Unbind (Tail [] (loop handler x k))))) in
    if handler then BindErr (fun v => Raise v) (Unbind rest) else rest
  end.
