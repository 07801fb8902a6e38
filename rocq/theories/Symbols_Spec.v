(** What obarrays, keywords, generated symbols and property lists should do:
    an obarray is a set of symbols with different names. *)
From Coq Require Import ZArith List Bool.
From Verif Require Import Numbers_Model Values_Model Symbols_Model.
Import ListNotations.
Open Scope Z_scope.

(** ** Symbols and obarrays without chains *)

(** A symbol: the string that is its name, the obarray it is in, whether it
    is a keyword. *)
Record wsymbol := MkW { wname : nat; wholder : option nat; wkey : bool }.

Record world := MkWorld {
  wstrs : list (list Z);
  wsyms : list wsymbol;
  wsizes : list nat;
  wcur : nat
}.

(** The part of a name before its first zero byte. *)
Fixpoint text (b : list Z) : list Z :=
  match b with
  | [] => []
  | c :: b' => if Z.eq_dec c 0 then [] else c :: text b'
  end.

Definition wstr (w : world) (n : nat) : list Z := nth n (wstrs w) [].
Definition wsym (w : world) (s : nat) : wsymbol := nth s (wsyms w) (MkW 0 None false).
Definition wtext (w : world) (s : nat) : list Z := text (wstr w (wname (wsym w s))).
Definition wwhich (w : world) (ob : option nat) : nat :=
  match ob with Some o => o | None => wcur w end.

(** Symbol [s] is in obarray [o] under the name [t]. *)
Definition interned (w : world) (o : nat) (t : list Z) (s : nat) : bool :=
  (s <? length (wsyms w))%nat &&
  (if list_eq_dec Z.eq_dec (wtext w s) t then true else false) &&
  match wholder (wsym w s) with Some o' => (o' =? o)%nat | None => false end.

Definition wfind (w : world) (o : nat) (t : list Z) : option nat :=
  find (interned w o t) (seq 0 (length (wsyms w))).

(** The calls a program can make. *)
Inductive op :=
  | MakeString (b : list Z)
  | Aset (n i : nat) (c : Z)
  | MakeSymbol (n : nat)
  | SymbolName (s : nat)
  | MakeObarray (size : Z)
  | SetObarray (o : nat)
  | FindSymbol (n : nat) (ob : option nat)
  | InternSymbol (s : nat) (ob : option nat)
  | Intern (n : nat) (ob : option nat)
  | Unintern (s : nat) (ob : option nat)
  | MakeKeyword (s : nat).

(** Doing a call with the model. *)
Definition exec (st : state) (c : op) : out * state :=
  match c with
  | MakeString b => make_string st b
  | Aset n i c => aset st n i c
  | MakeSymbol n => make_symbol st n
  | SymbolName s => (symbol_name st s, st)
  | MakeObarray size => make_obarray st size
  | SetObarray o => set_obarray st o
  | FindSymbol n ob => (find_symbol st n ob, st)
  | InternSymbol s ob => intern_symbol st s ob
  | Intern n ob => intern st n ob
  | Unintern s ob => unintern st s ob
  | MakeKeyword s => make_keyword st s
  end.

Fixpoint replace {A} (n : nat) (x : A) (l : list A) : list A :=
  match l, n with
  | [], _ => []
  | _ :: l', O => x :: l'
  | y :: l', S n' => y :: replace n' x l'
  end.

Definition with_sym (w : world) (s : nat) (x : wsymbol) : world :=
  MkWorld (wstrs w) (replace s x (wsyms w)) (wsizes w) (wcur w).
Definition add_sym (w : world) (x : wsymbol) : world :=
  MkWorld (wstrs w) (wsyms w ++ [x]) (wsizes w) (wcur w).
Definition add_str (w : world) (b : list Z) : world :=
  MkWorld (wstrs w ++ [b]) (wsyms w) (wsizes w) (wcur w).

Definition wintern (w : world) (n : nat) (o : nat) : nat * world :=
  match wfind w o (text (wstr w n)) with
  | Some s => (s, w)
  | None => (length (wsyms w), add_sym w (MkW n (Some o) false))
  end.

(** What each call should do. *)
Definition step (w : world) (c : op) : out * world :=
  match c with
  | MakeString b => (Ret (VStr (length (wstrs w))), add_str w b)
  | Aset n i c =>
    if (i <? length (wstr w n))%nat
    then (Ret VNil, MkWorld (replace n (replace i c (wstr w n)) (wstrs w)) (wsyms w) (wsizes w) (wcur w))
    else (Signal, w)
  | MakeSymbol n => (Ret (VSym (length (wsyms w))), add_sym w (MkW n None false))
  | SymbolName s => (Ret (VStr (wname (wsym w s))), w)
  | MakeObarray size =>
    if size <? 0 then (Signal, w)
    else (Ret (VOb (length (wsizes w))),
          MkWorld (wstrs w) (wsyms w) (wsizes w ++ [Z.to_nat size]) (wcur w))
  | SetObarray o => (Ret (VOb o), MkWorld (wstrs w) (wsyms w) (wsizes w) o)
  | FindSymbol n ob =>
    (Ret (match wfind w (wwhich w ob) (text (wstr w n)) with Some s => VSym s | None => VNil end), w)
  | InternSymbol s ob =>
    match wholder (wsym w s) with
    | Some _ => (Signal, w)
    | None => (Ret (VSym s), with_sym w s (MkW (wname (wsym w s)) (Some (wwhich w ob)) (wkey (wsym w s))))
    end
  | Intern n ob => let (s, w') := wintern w n (wwhich w ob) in (Ret (VSym s), w')
  | Unintern s ob =>
    (Ret (VSym s), with_sym w s (MkW (wname (wsym w s)) None (wkey (wsym w s))))
  | MakeKeyword s =>
    if wkey (wsym w s) then (Signal, w)
    else
      let w1 := add_str w (35 :: 58 :: wstr w (wname (wsym w s))) in
      let (k, w2) := wintern w1 (length (wstrs w)) keyword_ob in
      (Ret (VSym k), with_sym w2 k (MkW (wname (wsym w2 k)) (wholder (wsym w2 k)) true))
  end.

Definition ok_str (w : world) (n : nat) : Prop := (n < length (wstrs w))%nat.
Definition ok_sym (w : world) (s : nat) : Prop := (s < length (wsyms w))%nat.
Definition ok_ob (w : world) (ob : option nat) : Prop := (wwhich w ob < length (wsizes w))%nat.
(** An obarray that exists and has at least one bucket. *)
Definition has_room (w : world) (ob : option nat) : Prop :=
  (0 < nth (wwhich w ob) (wsizes w) 0)%nat.

(** Calls on objects that exist, that do not write into the name of a symbol,
    do not put two symbols of one name into an obarray, do not use an obarray
    without buckets, and do not take a symbol out of an obarray while it is
    in a different one. *)
Definition careful (w : world) (c : op) : Prop :=
  match c with
  | MakeString _ => True
  | Aset n _ _ => ok_str w n /\ forall s, ok_sym w s -> wname (wsym w s) <> n
  | MakeSymbol n => ok_str w n
  | SymbolName s => ok_sym w s
  | MakeObarray _ => True
  | SetObarray o => ok_ob w (Some o)
  | FindSymbol n ob => ok_str w n /\ ok_ob w ob
  | InternSymbol s ob =>
    ok_sym w s /\
    (wholder (wsym w s) = None ->
     has_room w ob /\ wfind w (wwhich w ob) (wtext w s) = None)
  | Intern n ob => ok_str w n /\ has_room w ob
  | Unintern s ob =>
    ok_sym w s /\ has_room w ob /\
    (wholder (wsym w s) = None \/ wholder (wsym w s) = Some (wwhich w ob))
  | MakeKeyword s => ok_sym w s
  end.

Definition wstart : world := MkWorld [] [] [509%nat; 127%nat] 0.

(** The states a program that only makes careful calls can reach, with the
    world they stand for. *)
Inductive reached : state -> world -> Prop :=
  | reached_start : reached start wstart
  | reached_step : forall st w c, reached st w -> careful w c ->
      reached (snd (exec st c)) (snd (step w c)).

(** The same sequence of calls made in both, and what they answer. *)
Fixpoint exec_all (st : state) (l : list op) : list out * state :=
  match l with
  | [] => ([], st)
  | c :: l' => let (r, st1) := exec st c in let (rs, st2) := exec_all st1 l' in (r :: rs, st2)
  end.
Fixpoint step_all (w : world) (l : list op) : list out * world :=
  match l with
  | [] => ([], w)
  | c :: l' => let (r, w1) := step w c in let (rs, w2) := step_all w1 l' in (r :: rs, w2)
  end.
Fixpoint careful_all (w : world) (l : list op) : Prop :=
  match l with
  | [] => True
  | c :: l' => careful w c /\ careful_all (snd (step w c)) l'
  end.

(** ** Property lists *)

(** Two objects are the same property: the same symbol, or equal objects that
    are not symbols. *)
Definition same_prop (cls : nat -> nat) (a b : obj) : Prop :=
  a = b \/ exists x y, a = PObj x /\ b = PObj y /\ cls x = cls y.

(** The cells of a list, in order: it ends, and does not share cells with
    itself. *)
Inductive listed (ps : pstate) : obj -> list nat -> Prop :=
  | listed_end : forall o, (forall c, o <> PCell c) -> listed ps o []
  | listed_cell : forall c l, (c < length (cells ps))%nat ->
      listed ps (cdr ps c) l -> listed ps (PCell c) (c :: l).

(** What a sequence of put calls leaves: the newest value for a property. *)
Fixpoint newest (cls : nat -> nat) (l : list (nat * obj * obj)) (s : nat) (p v : obj) : Prop :=
  match l with
  | [] => v = PNil
  | (s', p', v') :: l' =>
    (s = s' /\ same_prop cls p' p /\ v = v') \/
    (~ (s = s' /\ same_prop cls p' p) /\ newest cls l' s p v)
  end.

(** Making the calls of a list, oldest last. *)
Fixpoint puts (cls : nat -> nat) (l : list (nat * obj * obj)) : pstate :=
  match l with
  | [] => MkP [] (fun _ => PNil)
  | (s, p, v) :: l' => snd (put cls (fun _ => true) (puts cls l') s p v)
  end.

(** ** Generated symbols *)

(** The names of the next [k] symbols that gensym makes. *)
Fixpoint gensyms (k : nat) (counter : Z) : list (list Z) :=
  match k with
  | O => []
  | S k' => let (n, c) := gensym counter in n :: gensyms k' c
  end.
