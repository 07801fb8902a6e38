(** The module system: src/structures.c, with its cache of references.
    Symbols, structures and nodes are numbers; a number is not used again when
    its object has been freed, [None] standing for a freed one.  A name that has
    no structure would be loaded from a file: here that is an error.  The names,
    which are kept in the structure %structures, are a list of their own.  Each
    structure has its own list of exports it has no bindings for (inherited);
    [deliver] below is about shared ones.  Ages in the cache do not overflow. *)
From Coq Require Import List ZArith Bool Arith.
Import ListNotations.
Open Scope nat_scope.

Inductive res (A : Type) := Ok (a : A) | Wild | Fuel.
Arguments Ok {A}. Arguments Wild {A}. Arguments Fuel {A}.
Definition bind {A B} (r : res A) (f : A -> res B) : res B :=
  match r with Ok a => f a | Wild => Wild | Fuel => Fuel end.
Notation "'let*' x ':=' r 'in' e" := (bind r (fun x => e)) (at level 200, x pattern, right associativity).

Definition sym := nat.
(** The elements of the imports: a name, or a structure itself *)
Inductive imp := ByName (n : sym) | ByObj (s : nat).
Definition imp_eqb (a b : imp) : bool :=
  match a, b with ByName x, ByName y => Nat.eqb x y | ByObj x, ByObj y => Nat.eqb x y | _, _ => false end.
Definition memq (v : sym) (l : list sym) : bool := existsb (Nat.eqb v) l.
(** lispcmds.c 716-736 *)
Definition delq (v : sym) (l : list sym) : list sym := filter (fun x => negb (Nat.eqb v x)) l.

(** repint.h 114-142 *)
Record node := mkn { nsym : sym; nval : Z; nconst : bool; nexp : bool }.
Record struct := mks {
  sname : option sym;
  buckets : list (list nat);
  total : nat;
  inherited : list sym;
  imports : list imp;
  accessible : list sym;
  export_all : bool;
  set_binds : bool }.
Record world := mkw { structs : list (option struct); names : list (sym * option nat); nodes : list (option node) }.

Definition set_nth {A} (l : list A) (k : nat) (x : A) : list A := firstn k l ++ x :: skipn (S k) l.
Definition get_struct (w : world) (s : nat) : option struct := nth s (structs w) None.
Definition get_node (w : world) (n : nat) : option node := nth n (nodes w) None.
Definition put_struct (w : world) (s : nat) (x : struct) : world := mkw (set_nth (structs w) s (Some x)) (names w) (nodes w).
Definition put_node (w : world) (n : nat) (x : option node) : world := mkw (structs w) (names w) (set_nth (nodes w) n x).

Definition with_buckets (x : struct) (b : list (list nat)) (t : nat) :=
  mks (sname x) b t (inherited x) (imports x) (accessible x) (export_all x) (set_binds x).
Definition with_inherited (x : struct) (l : list sym) :=
  mks (sname x) (buckets x) (total x) l (imports x) (accessible x) (export_all x) (set_binds x).
Definition with_imports (x : struct) (l : list imp) :=
  mks (sname x) (buckets x) (total x) (inherited x) l (accessible x) (export_all x) (set_binds x).

(** * The cache, 232-346 *)
Record line := mkl { ls : option nat; ln : nat; lage : Z }.
Record cache := mkc { sets : list (list line); ref_age : Z }.
Definition CACHE_SETS : nat := 128.
Definition CACHE_ASSOC : nat := 4.
(** cache_flush, 341-346; the age goes on *)
Definition no_lines : list (list line) := repeat (repeat (mkl None 0 0%Z) CACHE_ASSOC) CACHE_SETS.
Definition flush (c : cache) : cache := mkc no_lines (ref_age c).

Section Hash.
(** The address of a symbol, shifted: CACHE_HASH 239, rep_STRUCT_HASH
    (repint.h 160) before the remainder *)
Variable hash : sym -> nat.
Definition set_of (v : sym) : nat := hash v mod CACHE_SETS.

(** enter_cache, 251-284: the line to replace *)
Fixpoint pick (l : list line) (i best : nat) (age : option Z) : nat :=
  match l with
  | [] => best
  | x :: l =>
      match ls x with
      | None => i
      | Some _ =>
          if match age with None => true | Some a => (lage x <? a)%Z end
          then pick l (S i) i (Some (lage x)) else pick l (S i) best age
      end
  end.
Definition enter_cache (w : world) (s n : nat) (c : cache) : res cache :=
  match get_node w n with
  | None => Wild
  | Some nd =>
      let j := set_of (nsym nd) in
      let l := nth j (sets c) [] in
      let age := (ref_age c + 1)%Z in
      Ok (mkc (set_nth (sets c) j (set_nth l (pick l 0 0 None) (mkl (Some s) n age))) age)
  end.

(** lookup_cache, 286-308 *)
Fixpoint scan (w : world) (s : nat) (v : sym) (l : list line) : res (option nat * list line) :=
  match l with
  | [] => Ok (None, [])
  | x :: l =>
      let next := let* (r, l) := scan w s v l in Ok (r, x :: l) in
      match ls x with
      | None => next
      | Some t =>
          if Nat.eqb t s then
            match get_node w (ln x) with
            | None => Wild
            | Some nd => if Nat.eqb (nsym nd) v then Ok (Some (ln x), mkl (ls x) (ln x) (lage x + 1)%Z :: l) else next
            end
          else next
      end
  end.
Definition lookup_cache (w : world) (s : nat) (v : sym) (c : cache) : res (option nat * cache) :=
  let* (r, l) := scan w s v (nth (set_of v) (sets c) []) in
  Ok (r, mkc (set_nth (sets c) (set_of v) l) (ref_age c)).

(** cache_invalidate_symbol, 310-324 *)
Fixpoint inval (w : world) (v : sym) (l : list line) : res (list line) :=
  match l with
  | [] => Ok []
  | x :: l =>
      let* l' := inval w v l in
      match ls x with
      | None => Ok (x :: l')
      | Some _ =>
          match get_node w (ln x) with
          | None => Wild
          | Some nd => Ok ((if Nat.eqb (nsym nd) v then mkl None (ln x) (lage x) else x) :: l')
          end
      end
  end.
Definition invalidate_symbol (w : world) (v : sym) (c : cache) : res cache :=
  let* l := inval w v (nth (set_of v) (sets c) []) in
  Ok (mkc (set_nth (sets c) (set_of v) l) (ref_age c)).
(** cache_invalidate_struct, 326-339 *)
Definition drop (s : nat) (x : line) : line :=
  match ls x with Some t => if Nat.eqb t s then mkl None (ln x) (lage x) else x | None => x end.
Definition invalidate_struct (s : nat) (c : cache) : cache := mkc (map (map (drop s)) (sets c)) (ref_age c).

(** * Bindings *)

(** structure_exports_inherited_p, 471-489 *)
Definition exports_inherited (x : struct) (v : sym) : bool := export_all x || memq v (inherited x).

(** lookup, 491-510 *)
Fixpoint find_node (w : world) (v : sym) (l : list nat) : res (option nat) :=
  match l with
  | [] => Ok None
  | n :: l =>
      match get_node w n with
      | None => Wild
      | Some nd => if Nat.eqb (nsym nd) v then Ok (Some n) else find_node w v l
      end
  end.
Definition slot (v : sym) (b : list (list nat)) : nat := hash v mod length b.
Definition lookup (w : world) (x : struct) (v : sym) : res (option nat) :=
  match buckets x with [] => Ok None | b => find_node w v (nth (slot v b) b []) end.

(** 528-550, the chains being taken one after the other *)
Fixpoint rehash (w : world) (l : list nat) (b : list (list nat)) : res (list (list nat)) :=
  match l with
  | [] => Ok b
  | n :: l =>
      match get_node w n with
      | None => Wild
      | Some nd => let j := slot (nsym nd) b in rehash w l (set_nth b j (n :: nth j b []))
      end
  end.
Definition MIN_BUCKETS : nat := 8.
Definition MAX_MULTIPLIER : nat := 2.
(** lookup_or_add, 512-570; the value of a new node is set by the callers *)
Definition lookup_or_add (w : world) (c : cache) (s : nat) (x : struct) (v : sym) : res (nat * world * cache) :=
  let* r := lookup w x v in
  match r with
  | Some n => Ok (n, w, c)
  | None =>
      let b := match buckets x with [] => repeat [] MIN_BUCKETS | b => b end in
      let* b := if Nat.ltb (length b * MAX_MULTIPLIER) (total x)
                then rehash w (concat b) (repeat [] (length b * 2)) else Ok b in
      let n := length (nodes w) in
      let j := slot v b in
      let exported := exports_inherited x v in
      let x := with_buckets x (set_nth b j (n :: nth j b [])) (S (total x)) in
      let x := if exported then with_inherited x (delq v (inherited x)) else x in
      let w := mkw (set_nth (structs w) s (Some x)) (names w) (nodes w ++ [Some (mkn v 0%Z false exported)]) in
      let* c := invalidate_symbol w v c in
      Ok (n, w, c)
  end.

(** remove_binding, 572-592: the cache is looked at after the node was freed *)
Fixpoint remove1 (n : nat) (l : list nat) : list nat :=
  match l with [] => [] | x :: l => if Nat.eqb x n then l else x :: remove1 n l end.
Definition remove_binding (w : world) (c : cache) (s : nat) (x : struct) (v : sym) : res (world * cache) :=
  let* r := lookup w x v in
  match r with
  | None => Ok (w, c)
  | Some n =>
      let b := buckets x in
      let j := slot v b in
      let x := with_buckets x (set_nth b j (remove1 n (nth j b []))) (total x) in
      let w := put_node (put_struct w s x) n None in
      let* c := invalidate_symbol w v c in
      Ok (w, c)
  end.

(** get-structure, 643-656 *)
Definition get_structure (w : world) (nm : sym) : option nat :=
  match find (fun p => Nat.eqb (fst p) nm) (names w) with Some (_, r) => r | None => None end.
Definition resolve (w : world) (i : imp) : option nat :=
  match i with ByName nm => get_structure w nm | ByObj s => Some s end.

(** lookup_recursively, 594-617, and rep_search_imports, 619-641; [ex] are the
    structures with the flag rep_STF_EXCLUSION *)
Section Search.
  Variable w : world.
  Variable v : sym.
  Definition search_fun := list nat -> nat -> cache -> res (option nat * cache).
  Definition recursively (search : search_fun) (ex : list nat) (i : imp) (c : cache) : res (option nat * cache) :=
    match resolve w i with
    | None => Ok (None, c)
    | Some s =>
        match get_struct w s with
        | None => Wild
        | Some x =>
            if existsb (Nat.eqb s) ex then Ok (None, c)
            else
              let* r := lookup w x v in
              match r with
              | Some n =>
                  match get_node w n with
                  | None => Wild
                  | Some nd => Ok (if nexp nd then Some n else None, c)
                  end
              | None => if exports_inherited x v then search (s :: ex) s c else Ok (None, c)
              end
        end
    end.
  Fixpoint first (search : search_fun) (ex : list nat) (l : list imp) (c : cache) : res (option nat * cache) :=
    match l with
    | [] => Ok (None, c)
    | i :: l =>
        let* (r, c) := recursively search ex i c in
        match r with Some n => Ok (Some n, c) | None => first search ex l c end
    end.
  Fixpoint search (fuel : nat) (ex : list nat) (s : nat) (c : cache) : res (option nat * cache) :=
    match fuel with
    | O => Fuel
    | S fuel =>
        match get_struct w s with
        | None => Wild
        | Some x =>
            let* (r, c) := lookup_cache w s v c in
            match r with
            | Some n => Ok (Some n, c)
            | None =>
                let* (r, c) := first (search fuel) ex (imports x) c in
                match r with
                | Some n => let* c := enter_cache w s n c in Ok (Some n, c)
                | None => Ok (None, c)
                end
            end
        end
    end.
  (** Each level excludes one structure more *)
  Definition depth : nat := S (S (length (structs w))).
  Definition search_imports := search depth [].
  Definition lookup_recursively := recursively (search depth) [].
End Search.

(** * The functions *)
Inductive op :=
| Make (sig : list sym) (nm : option sym)
| Name (s : nat) (nm : option sym)
| Define (s : nat) (v : sym) (a : Z)
| Set_ (s : nat) (v : sym) (a : Z)
| Undefine (s : nat) (v : sym)
| Interface (s : nat) (sig : list sym)
| Export (s : nat) (v : sym)
| Open (s : nat) (l : list imp)
| Access (s : nat) (l : list sym)
| Immutable (s : nat) (v : sym)
| ExportAll (s : nat)
| SetBinds (s : nat)
| Ref (s : nat) (v : sym)
| ExtRef (s : nat) (nm : sym) (v : sym)
| ImmutableP (s : nat) (v : sym)
| ExportsP (s : nat) (v : sym)
| Meta (s : nat) (nm : sym)
| Unmeta (s : nat) (nm : sym)
| Collect (l : list nat).
Inductive answer := Done | New (s : nat) | Value (a : option Z) | Error | Flag (b : bool) | Exports (local external : bool).

Record state := mkst { wd : world; ca : cache }.

(** The address of the structure's name, 676-684: %structures has no
    constant bindings *)
Definition set_name (w : world) (nm : sym) (r : option nat) : world := mkw (structs w) ((nm, r) :: names w) (nodes w).
(** name-structure, 658-688 *)
Definition name_structure (st : state) (s : nat) (x : struct) (nm : option sym) : state :=
  let w := wd st in
  let w :=
    match nm, sname x with
    | Some n, None => put_struct (set_name w n (Some s)) s
        (mks (Some n) (buckets x) (total x) (inherited x) (imports x) (accessible x) (export_all x) (set_binds x))
    | Some n, Some _ => set_name w n (Some s)
    | None, Some n => set_name w n None
    | None, None => w
    end in
  mkst w (flush (ca st)).

(** The value of a node, unless it is constant: 850-861, 891-900 *)
Definition store (w : world) (n : nat) (a : Z) : res (answer * world) :=
  match get_node w n with
  | None => Wild
  | Some nd => if nconst nd then Ok (Error, w) else Ok (Value (Some a), put_node w n (Some (mkn (nsym nd) a false (nexp nd))))
  end.

(** set-interface, 1030-1052: the nodes in the order of the buckets *)
Fixpoint reexport (w : world) (l : list nat) (inh : list sym) : res (world * list sym) :=
  match l with
  | [] => Ok (w, inh)
  | n :: l =>
      match get_node w n with
      | None => Wild
      | Some nd =>
          let e := memq (nsym nd) inh in
          reexport (put_node w n (Some (mkn (nsym nd) (nval nd) (nconst nd) e))) l (if e then delq (nsym nd) inh else inh)
      end
  end.

(** open-structures, 1122-1145; false for an error *)
Fixpoint open_loop (w : world) (l : list imp) (imps : list imp) : bool * list imp :=
  match l with
  | [] => (true, imps)
  | i :: l =>
      if existsb (imp_eqb i) imps then open_loop w l imps
      else match resolve w i with
           | Some s => match get_struct w s with Some _ => open_loop w l (i :: imps) | None => (false, imps) end
           | None => (false, imps)
           end
  end.
(** access-structures, 1158-1178 *)
Fixpoint access_loop (w : world) (l : list sym) (acc : list sym) : bool * list sym :=
  match l with
  | [] => (true, acc)
  | n :: l =>
      if memq n acc then access_loop w l acc
      else match get_structure w n with
           | Some s => match get_struct w s with Some _ => access_loop w l (n :: acc) | None => (false, acc) end
           | None => (false, acc)
           end
  end.

(** free_structure, 417-435 *)
Definition free_structure (st : state) (s : nat) : res state :=
  match get_struct (wd st) s with
  | None => Wild
  | Some x =>
      let w := wd st in
      Ok (mkst (mkw (set_nth (structs w) s None) (names w)
                  (fold_left (fun l n => set_nth l n None) (concat (buckets x)) (nodes w)))
               (invalidate_struct s (ca st)))
  end.
(** structure_sweep, 437-455: the structures not marked *)
Fixpoint sweep (st : state) (l : list nat) : res state :=
  match l with [] => Ok st | s :: l => let* st := free_structure st s in sweep st l end.

Definition value_of (w : world) (r : option nat) : res answer :=
  match r with
  | None => Ok (Value None)
  | Some n => match get_node w n with None => Wild | Some nd => Ok (Value (Some (nval nd))) end
  end.
Definition on_struct (st : state) (s : nat) (f : struct -> res (answer * state)) : res (answer * state) :=
  match get_struct (wd st) s with Some x => f x | None => Wild end.

Definition step (st : state) (o : op) : res (answer * state) :=
  let w := wd st in
  match o with
  (* make-structure 691-793 without thunks *)
  | Make sig nm =>
      let s := length (structs w) in
      let x := mks nm [] 0 sig [] [] false false in
      let st := mkst (mkw (structs w ++ [Some x]) (names w) (nodes w)) (ca st) in
      Ok (New s, match nm with Some _ => name_structure st s x nm | None => st end)
  | Name s nm => on_struct st s (fun x => Ok (Done, name_structure st s x nm))
  (* structure-define 872-908 *)
  | Define s v a => on_struct st s (fun x =>
      let* (n, w, c) := lookup_or_add w (ca st) s x v in
      let* (r, w) := store w n a in Ok (r, mkst w c))
  (* structure-set 829-870 *)
  | Set_ s v a => on_struct st s (fun x =>
      let* (r, w, c) := if set_binds x then let* (n, w, c) := lookup_or_add w (ca st) s x v in Ok (Some n, w, c)
                        else let* r := lookup w x v in Ok (r, w, ca st) in
      match r with
      | Some n => let* (r, w) := store w n a in Ok (r, mkst w c)
      | None => Ok (Error, mkst w c)
      end)
  (* both with the void value, 865-869 and 903-907 *)
  | Undefine s v => on_struct st s (fun x =>
      let* (w, c) := remove_binding w (ca st) s x v in Ok (Done, mkst w c))
  | Interface s sig => on_struct st s (fun x =>
      let* (w, inh) := reexport w (concat (buckets x)) sig in
      Ok (Done, mkst (put_struct w s (mks (sname x) (buckets x) (total x) inh (imports x) (accessible x) false (set_binds x)))
                  (flush (ca st))))
  (* Fexport_binding, 1324-1350 *)
  | Export s v => on_struct st s (fun x =>
      let* r := lookup w x v in
      match r with
      | Some n =>
          match get_node w n with
          | None => Wild
          | Some nd =>
              if nexp nd then Ok (Done, st)
              else let w := put_node w n (Some (mkn (nsym nd) (nval nd) (nconst nd) true)) in
                   let* c := invalidate_symbol w v (ca st) in Ok (Done, mkst w c)
          end
      | None =>
          if exports_inherited x v then Ok (Done, st)
          else let w := put_struct w s (with_inherited x (v :: inherited x)) in
               let* c := invalidate_symbol w v (ca st) in Ok (Done, mkst w c)
      end)
  | Open s l => on_struct st s (fun x =>
      let '(ok, imps) := open_loop w l (imports x) in
      Ok (if ok then Done else Error, mkst (put_struct w s (with_imports x imps)) (flush (ca st))))
  | Access s l => on_struct st s (fun x =>
      let '(ok, acc) := access_loop w l (accessible x) in
      Ok (if ok then Done else Error,
          mkst (put_struct w s (mks (sname x) (buckets x) (total x) (inherited x) (imports x) acc (export_all x) (set_binds x)))
               (flush (ca st))))
  (* make-binding-immutable 1280-1300 *)
  | Immutable s v => on_struct st s (fun x =>
      let* r := lookup w x v in
      match r with
      | Some n => match get_node w n with
                  | None => Wild
                  | Some nd => Ok (Done, mkst (put_node w n (Some (mkn (nsym nd) (nval nd) true (nexp nd)))) (ca st))
                  end
      | None => Ok (Error, st)
      end)
  (* structure-exports-all 1548-1559: status is never null *)
  | ExportAll s => on_struct st s (fun x =>
      Ok (Done, mkst (put_struct w s (mks (sname x) (buckets x) (total x) (inherited x) (imports x) (accessible x) true (set_binds x))) (ca st)))
  (* structure-set-binds 1561-1570 *)
  | SetBinds s => on_struct st s (fun x =>
      Ok (Done, mkst (put_struct w s (mks (sname x) (buckets x) (total x) (inherited x) (imports x) (accessible x) (export_all x) true)) (ca st)))
  (* %structure-ref 795-821, OP_REFG (lispmach.h 942-969) *)
  | Ref s v => on_struct st s (fun x =>
      let* r := lookup w x v in
      let* (r, c) := match r with Some n => Ok (Some n, ca st) | None => search_imports w v s (ca st) end in
      let* a := value_of w r in Ok (a, mkst w c))
  (* external-structure-ref 910-944 *)
  | ExtRef s nm v => on_struct st s (fun x =>
      if memq nm (accessible x) || existsb (imp_eqb (ByName nm)) (imports x) then
        let* (r, c) := lookup_recursively w v (ByName nm) (ca st) in
        let* a := value_of w r in
        Ok (match a with Value None => Error | a => a end, mkst w c)
      else Ok (Error, st))
  (* binding-immutable-p 1302-1322 *)
  | ImmutableP s v => on_struct st s (fun x =>
      let* r := lookup w x v in
      let* (r, c) := match r with Some n => Ok (Some n, ca st) | None => search_imports w v s (ca st) end in
      match r with
      | None => Ok (Flag false, mkst w c)
      | Some n => match get_node w n with None => Wild | Some nd => Ok (Flag (nconst nd), mkst w c) end
      end)
  (* structure-exports-p 969-987 *)
  | ExportsP s v => on_struct st s (fun x =>
      let* r := lookup w x v in
      match r with
      | Some n => match get_node w n with None => Wild | Some nd => Ok (Exports (nexp nd) false, st) end
      | None => Ok (Exports false (exports_inherited x v), st)
      end)
  (* make-structure 757-761: what is done to the imports before and after the
     config thunk is called; nm is %meta *)
  | Meta s nm => on_struct st s (fun x => Ok (Done, mkst (put_struct w s (with_imports x (ByName nm :: imports x))) (ca st)))
  | Unmeta s nm => on_struct st s (fun x =>
      Ok (Done, mkst (put_struct w s (with_imports x (filter (fun i => negb (imp_eqb (ByName nm) i)) (imports x)))) (ca st)))
  | Collect l => let* st := sweep st l in Ok (Done, st)
  end.

Fixpoint run (st : state) (ops : list op) : res (list answer * state) :=
  match ops with
  | [] => Ok ([], st)
  | o :: ops =>
      let* (a, st) := step st o in
      let* (l, st) := run st ops in Ok (a :: l, st)
  end.
End Hash.

Definition initial : state := mkst (mkw [] [] []) (mkc no_lines 0%Z).

(** * Shared interfaces *)
(** Conses: the address of a list is that of its first cons.  make-structure
    734 keeps the list it is given; parse-interface (lisp/rep/structures.jl
    37-50) gives the list stored under the name of an interface. *)
Definition conses := list (sym * option nat).
Fixpoint list_at (fuel : nat) (h : conses) (a : option nat) : option (list sym) :=
  match fuel, a with
  | _, None => Some []
  | O, Some _ => None
  | S f, Some a =>
      match nth_error h a with
      | Some (x, d) => option_map (cons x) (list_at f h d)
      | None => None
      end
  end.
(** Fdelq, lispcmds.c 723-735; [prev] is the cons whose cdr head points to,
    if not the variable list: the list and the conses afterwards *)
Fixpoint delq_at (fuel : nat) (v : sym) (h : conses) (l : option nat) (prev : option nat) (a : option nat) : option (option nat * conses) :=
  match fuel with
  | O => None
  | S f =>
      match a with
      | None => Some (l, h)
      | Some a =>
          match nth_error h a with
          | None => None
          | Some (x, d) =>
              if Nat.eqb v x then
                match prev with
                | None => delq_at f v h d None d
                | Some p => match nth_error h p with
                            | Some (y, _) => delq_at f v (set_nth h p (y, d)) l prev d
                            | None => None
                            end
                end
              else delq_at f v h l (Some a) d
          end
      end
  end.
(** Definitions, in this order, in a structure whose interface is the list at
    [a]: which of them are exported, 560-564, and the conses afterwards *)
Fixpoint deliver (fuel : nat) (h : conses) (a : option nat) (defs : list sym) : option (list bool * conses) :=
  match defs with
  | [] => Some ([], h)
  | v :: defs =>
      match list_at fuel h a with
      | None => None
      | Some l =>
          match (if memq v l then delq_at fuel v h a None a else Some (a, h)) with
          | None => None
          | Some (a, h) =>
              match deliver fuel h a defs with
              | None => None
              | Some (r, h) => Some (memq v l :: r, h)
              end
          end
      end
  end.
