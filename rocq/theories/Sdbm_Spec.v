(* Specification of an sdbm page and of a database, independent of the code:
   a page holds a sequence of pairs, a database is a finite map. *)
From Coq Require Import ZArith List Bool.
From Verif Require Import Sdbm_Model.
Import ListNotations.
Open Scope Z_scope.

Definition bstring := list Z.
Definition pairs := list (bstring * bstring).

Definition bstr_eq : forall a b : bstring, {a = b} + {a <> b} := list_eq_dec Z.eq_dec.

(* First value stored under a key. *)
Fixpoint assoc (k : bstring) (ps : pairs) : option bstring :=
  match ps with
  | [] => None
  | (k', v) :: r => if bstr_eq k k' then Some v else assoc k r
  end.

(* The pairs without the first one stored under k. *)
Fixpoint remove1 (k : bstring) (ps : pairs) : pairs :=
  match ps with
  | [] => []
  | (k', v) :: r => if bstr_eq k k' then r else (k', v) :: remove1 k r
  end.

(* Bytes taken in a 1024-byte page: a count, then two offsets for each pair,
   then the text of every pair. *)
Definition pair_size (kv : bstring * bstring) : Z :=
  4 + Z.of_nat (length (fst kv)) + Z.of_nat (length (snd kv)).
Definition page_size (ps : pairs) : Z := 2 + fold_right Z.add 0 (map pair_size ps).

(* What a sequence of requests to one page means. *)
Definition pop_spec (ps : pairs) (o : pagereq) : pairs :=
  match o with
  | PPut k v => if page_size (ps ++ [(k, v)]) <=? 1024 then ps ++ [(k, v)] else ps
  | PDel k => remove1 k ps
  end.
Definition page_spec (os : list pagereq) : pairs := fold_left pop_spec os [].

(* A database is a map from keys to values. *)
Definition dmap := bstring -> option bstring.
Definition empty : dmap := fun _ => None.
Definition dset (m : dmap) (k v : bstring) : dmap :=
  fun k' => if bstr_eq k' k then Some v else m k'.
Definition ddel (m : dmap) (k : bstring) : dmap :=
  fun k' => if bstr_eq k' k then None else m k'.

Definition is_some {A} (o : option A) : bool := match o with Some _ => true | None => false end.

(* Enough stored keys share the last ten bits of the hash of k to fill a page
   by themselves: the only reason for which a store may fail. *)
Definition crowded (m : dmap) (k v : bstring) : Prop :=
  exists ps,
    NoDup (map fst ps) /\
    (forall k' v', In (k', v') ps ->
       k' <> k /\ m k' = Some v' /\ sdbm_hash k' mod 1024 = sdbm_hash k mod 1024) /\
    1024 < page_size (ps ++ [(k, v)]).

(* spec_step ro m r a m': on a database with contents m (read-only if ro) the
   request r may be answered by a and leave the contents m'. *)
Inductive spec_step (ro : bool) (m : dmap) : req -> ans -> bool -> dmap -> Prop :=
| SFetch : forall k, spec_step ro m (RFetch k) (AVal (m k)) ro m
| SDelAbsent : forall k, ro = true \/ m k = None ->
    spec_step ro m (RDelete k) (ACode (-1)) ro m
| SDel : forall k, ro = false -> m k <> None ->
    spec_step ro m (RDelete k) (ACode 0) ro (ddel m k)
| SStoreBad : forall k v b,
    ro = true \/ k = [] \/ 1008 < Z.of_nat (length k) + Z.of_nat (length v) ->
    spec_step ro m (RStore k v b) (ACode (-1)) ro m
| SStoreDup : forall k v, ro = false -> m k <> None ->
    spec_step ro m (RStore k v false) (ACode 1) ro m
| SStore : forall k v b,
    ro = false -> k <> [] -> Z.of_nat (length k) + Z.of_nat (length v) <= 1008 ->
    b = true \/ m k = None ->
    spec_step ro m (RStore k v b) (ACode 0) ro (dset m k v)
| SStoreFail : forall k v b,
    ro = false -> b = true \/ m k = None -> crowded m k v ->
    spec_step ro m (RStore k v b) (ACode (-1)) ro (ddel m k)
| SWalk : forall r o, r = RFirst \/ r = RNext -> spec_step ro m r (AVal o) ro m
| SReopen : forall ro', spec_step ro m (RReopen ro') (ACode 0) ro' m.

Inductive spec_run : bool -> dmap -> list req -> list ans -> bool -> dmap -> Prop :=
| RunNil : forall ro m, spec_run ro m [] [] ro m
| RunCons : forall ro m r a ro1 m1 rs l ro2 m2,
    spec_step ro m r a ro1 m1 -> spec_run ro1 m1 rs l ro2 m2 ->
    spec_run ro m (r :: rs) (a :: l) ro2 m2.

(* Lengths are C ints. *)
Definition small (r : req) : Prop :=
  match r with
  | RFetch k | RDelete k => Z.of_nat (length k) < 2 ^ 31
  | RStore k v _ => Z.of_nat (length k) < 2 ^ 31 /\ Z.of_nat (length v) < 2 ^ 31
  | _ => True
  end.

(* A value of n bytes, for examples. *)
Definition xs (n : nat) : bstring := repeat 120 n.
