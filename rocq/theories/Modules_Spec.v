(** What modules mean, without tables, nodes or a cache. *)
From Coq Require Import List ZArith Bool Arith.
From Verif Require Import Modules_Model.
Import ListNotations.
Open Scope nat_scope.

Record entry := mke { value : Z; constant : bool; exported : bool }.
(** [named] is the first name of the module, [reexports] what it exports
    without a definition, [everything] whether it exports all of its
    definitions, [opens] the modules it has opened, last one first *)
Record module := mkm {
  named : option sym;
  defs : sym -> option entry;
  reexports : list sym;
  everything : bool;
  binds : bool;
  opens : list imp;
  accesses : list sym }.
(** Modules are numbered in the order they were made *)
Record universe := mku { count : nat; mods : nat -> option module; called : sym -> option nat }.

Definition the (U : universe) (i : imp) : option nat :=
  match i with ByName n => called U n | ByObj s => Some s end.
Definition passes (m : module) (v : sym) : bool := everything m || existsb (Nat.eqb v) (reexports m).

(** The module that a module offers a symbol from, if any: itself when it has
    an exported definition, and when it has no definition but exports the
    symbol, the first of the modules it opens that offers it *)
Inductive offers (U : universe) (v : sym) : imp -> option nat -> Prop :=
| offers_unknown i : the U i = None -> offers U v i None
| offers_own i s m e : the U i = Some s -> mods U s = Some m -> defs m v = Some e -> exported e = true -> offers U v i (Some s)
| offers_hidden i s m e : the U i = Some s -> mods U s = Some m -> defs m v = Some e -> exported e = false -> offers U v i None
| offers_not i s m : the U i = Some s -> mods U s = Some m -> defs m v = None -> passes m v = false -> offers U v i None
| offers_other i s m r : the U i = Some s -> mods U s = Some m -> defs m v = None -> passes m v = true ->
    among U v (opens m) r -> offers U v i r
with among (U : universe) (v : sym) : list imp -> option nat -> Prop :=
| among_none : among U v [] None
| among_first i l s : offers U v i (Some s) -> among U v (i :: l) (Some s)
| among_later i l r : offers U v i None -> among U v l r -> among U v (i :: l) r.

(** The module a symbol is defined in, as seen inside a module *)
Definition denotes (U : universe) (s : nat) (v : sym) (r : option nat) : Prop :=
  exists m, mods U s = Some m /\ match defs m v with Some _ => r = Some s | None => among U v (opens m) r end.
Definition entry_at (U : universe) (r : option nat) (v : sym) : option entry :=
  match r with Some s => match mods U s with Some m => defs m v | None => None end | None => None end.

(** One module opens another; no module is below itself *)
Definition edge (U : universe) (s t : nat) : Prop :=
  exists m i, mods U s = Some m /\ In i (opens m) /\ the U i = Some t.
Inductive below (U : universe) : nat -> nat -> Prop :=
| below_refl s : below U s s
| below_step s t u : edge U s t -> below U t u -> below U s u.
Definition grounded (U : universe) (s : nat) : Prop := Acc (fun t s => edge U s t) s.

(** * What each operation does *)
Definition at_mod (U : universe) (s : nat) (m : module) : universe :=
  mku (count U) (fun t => if Nat.eqb t s then Some m else mods U t) (called U).
Definition change (U : universe) (s : nat) (f : module -> module) : universe :=
  match mods U s with Some m => at_mod U s (f m) | None => U end.
Definition with_def (m : module) (v : sym) (e : option entry) (r : list sym) : module :=
  mkm (named m) (fun u => if Nat.eqb u v then e else defs m u) r (everything m) (binds m) (opens m) (accesses m).
Definition without (v : sym) (l : list sym) : list sym := filter (fun x => negb (Nat.eqb v x)) l.

Definition call (U : universe) (n : sym) (r : option nat) : universe :=
  mku (count U) (mods U) (fun k => if Nat.eqb k n then r else called U k).
Definition define (m : module) (v : sym) (a : Z) : module :=
  match defs m v with
  | Some e => if constant e then m else with_def m v (Some (mke a false (exported e))) (reexports m)
  | None =>
      if passes m v then with_def m v (Some (mke a false true)) (without v (reexports m))
      else with_def m v (Some (mke a false false)) (reexports m)
  end.
(** The modules are opened in turn, up to the first one there is no module
    for; names that were opened before are left out *)
Inductive opening (U : universe) : list imp -> list imp -> bool -> list imp -> Prop :=
| opening_nil o : opening U [] o true o
| opening_old i l o b r : In i o -> opening U l o b r -> opening U (i :: l) o b r
| opening_new i l o s m b r : ~ In i o -> the U i = Some s -> mods U s = Some m -> opening U l (i :: o) b r -> opening U (i :: l) o b r
| opening_fail i l o : ~ In i o -> (forall s, the U i = Some s -> mods U s = None) -> opening U (i :: l) o false o.

Inductive does (U : universe) : op -> answer -> universe -> Prop :=
| does_make sig nm :
    does U (Make sig nm) (New (count U))
      (let U' := mku (S (count U))
                   (fun t => if Nat.eqb t (count U) then Some (mkm nm (fun _ => None) sig false false [] []) else mods U t) (called U) in
       match nm with Some n => call U' n (Some (count U)) | None => U' end)
| does_name s n m : mods U s = Some m ->
    does U (Name s (Some n)) Done
      (call (at_mod U s (mkm (match named m with Some k => Some k | None => Some n end)
                             (defs m) (reexports m) (everything m) (binds m) (opens m) (accesses m))) n (Some s))
| does_unname s m : mods U s = Some m ->
    does U (Name s None) Done (match named m with Some k => call U k None | None => U end)
| does_define s v a m : mods U s = Some m ->
    does U (Define s v a) (match defs m v with Some (mke _ true _) => Error | _ => Value (Some a) end)
      (at_mod U s (define m v a))
| does_set s v a m e : mods U s = Some m -> defs m v = Some e ->
    does U (Set_ s v a) (if constant e then Error else Value (Some a)) (at_mod U s (define m v a))
| does_set_new s v a m : mods U s = Some m -> defs m v = None ->
    does U (Set_ s v a) (if binds m then Value (Some a) else Error) (if binds m then at_mod U s (define m v a) else U)
| does_undefine s v m : mods U s = Some m ->
    does U (Undefine s v) Done (at_mod U s (with_def m v None (reexports m)))
| does_interface s sig m : mods U s = Some m ->
    does U (Interface s sig) Done
      (at_mod U s (mkm (named m)
         (fun v => match defs m v with Some e => Some (mke (value e) (constant e) (existsb (Nat.eqb v) sig)) | None => None end)
         (filter (fun v => match defs m v with Some _ => false | None => true end) sig)
         false (binds m) (opens m) (accesses m)))
| does_export s v m e : mods U s = Some m -> defs m v = Some e ->
    does U (Export s v) Done (at_mod U s (with_def m v (Some (mke (value e) (constant e) true)) (reexports m)))
| does_export_other s v m : mods U s = Some m -> defs m v = None ->
    does U (Export s v) Done
      (if passes m v then U
       else at_mod U s (mkm (named m) (defs m) (v :: reexports m) (everything m) (binds m) (opens m) (accesses m)))
| does_open s l m b o : mods U s = Some m -> opening U l (opens m) b o ->
    does U (Open s l) (if b then Done else Error)
      (at_mod U s (mkm (named m) (defs m) (reexports m) (everything m) (binds m) o (accesses m)))
| does_access s l m b o : mods U s = Some m ->
    opening U (map ByName l) (map ByName (accesses m)) b (map ByName o) ->
    does U (Access s l) (if b then Done else Error)
      (at_mod U s (mkm (named m) (defs m) (reexports m) (everything m) (binds m) (opens m) o))
| does_immutable s v m : mods U s = Some m ->
    does U (Immutable s v) (match defs m v with Some _ => Done | None => Error end)
      (match defs m v with
       | Some e => at_mod U s (with_def m v (Some (mke (value e) true (exported e))) (reexports m))
       | None => U
       end)
| does_export_all s m : mods U s = Some m ->
    does U (ExportAll s) Done (at_mod U s (mkm (named m) (defs m) (reexports m) true (binds m) (opens m) (accesses m)))
| does_set_binds s m : mods U s = Some m ->
    does U (SetBinds s) Done (at_mod U s (mkm (named m) (defs m) (reexports m) (everything m) true (opens m) (accesses m)))
| does_ref s v a m : mods U s = Some m ->
    (grounded U s -> exists r, denotes U s v r /\ a = option_map value (entry_at U r v)) ->
    does U (Ref s v) (Value a) U
| does_extref s nm v a m : mods U s = Some m -> In nm (accesses m) \/ In (ByName nm) (opens m) ->
    (forall t, called U nm = Some t -> grounded U t ->
       exists r, offers U v (ByName nm) r /\
         a = match entry_at U r v with Some e => Value (Some (value e)) | None => Error end) ->
    (called U nm = None -> a = Error) ->
    does U (ExtRef s nm v) a U
| does_extref_not s nm v m : mods U s = Some m -> ~ In nm (accesses m) -> ~ In (ByName nm) (opens m) ->
    does U (ExtRef s nm v) Error U
| does_immutable_p s v b m : mods U s = Some m ->
    (grounded U s -> exists r, denotes U s v r /\ b = match entry_at U r v with Some e => constant e | None => false end) ->
    does U (ImmutableP s v) (Flag b) U
| does_exports_p s v m : mods U s = Some m ->
    does U (ExportsP s v) (match defs m v with Some e => Exports (exported e) false | None => Exports false (passes m v) end) U
| does_collect l : does U (Collect l) Done (mku (count U) (fun t => if existsb (Nat.eqb t) l then None else mods U t) (called U)).

(** Nobody has opened the module *)
Definition unopened (U : universe) (s : nat) : Prop := forall t, ~ edge U t s.
(** The operations are used on modules that there are; definitions are taken
    away from a module, and it is made to export everything, only while
    nobody has opened it; what is collected is not in use. *)
Definition allowed (U : universe) (o : op) : Prop :=
  match o with
  | Make _ _ => True
  | Undefine s _ | ExportAll s => mods U s <> None /\ unopened U s
  | Name s _ | Define s _ _ | Set_ s _ _ | Interface s _ | Export s _ | Access s _ | Immutable s _
  | SetBinds s | Ref s _ | ExtRef s _ _ | ImmutableP s _ | ExportsP s _ => mods U s <> None
  | Open s l => mods U s <> None /\ (forall t, In (ByObj t) l -> mods U t <> None)
  | Meta _ _ | Unmeta _ _ => False
  | Collect l =>
      NoDup l /\ (forall s, In s l -> mods U s <> None) /\
      (forall n s, called U n = Some s -> ~ In s l) /\
      (forall t s, edge U t s -> ~ In t l -> ~ In s l)
  end.

(** A run: the answers to the operations of a program *)
Inductive meaning (U : universe) : list op -> list answer -> universe -> Prop :=
| meaning_nil : meaning U [] [] U
| meaning_cons o os a l U1 U2 : does U o a U1 -> meaning U1 os l U2 -> meaning U (o :: os) (a :: l) U2.
(** Every operation of the program is allowed when it is reached *)
Inductive proper (U : universe) : list op -> Prop :=
| proper_nil : proper U []
| proper_cons o os : allowed U o -> (forall a U1, does U o a U1 -> proper U1 os) -> proper U (o :: os).
Definition nothing : universe := mku 0 (fun _ => None) (fun _ => None).
