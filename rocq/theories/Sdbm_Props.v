(** sdbm: the theorems. *)
From Coq Require Import ZArith List Bool Lia.
From Verif Require Import Sdbm_Model Sdbm_Spec Sdbm_Proofs Sdbm_DbProofs Sdbm_RunProofs Sdbm_CrashProofs Sdbm_EndProofs.
Import ListNotations.
Open Scope Z_scope.

(** Any sequence of insertions and deletions leaves a page that answers as the
    association list does, and touches no byte outside the page. *)
Theorem C04_page_history : forall os,
  let p := fold_left pstep os zeropage in
  let ps := page_spec os in
  page_size ps <= 1024 /\
  (forall k, getpair p k = assoc k ps) /\
  (forall k, duppair p k = match assoc k ps with Some _ => true | None => false end) /\
  (forall i, getnkey p (Z.of_nat i + 1) = option_map fst (nth_error ps i)) /\
  (forall k v, fitpair p (dsize k + dsize v) = (page_size (ps ++ [(k, v)]) <=? 1024)) /\
  (forall k, delpair p k = None <-> assoc k ps = None) /\
  chkpage p = true /\
  (forall x, ~ (0 <= x < 1024) -> p x = zeropage x).
Proof. exact page_history. Qed.
Print Assumptions C04_page_history.

Example C04_page_history_case :
  let os := [PPut [97] [1; 2]; PPut [98; 98] []; PDel [97]; PPut [99] (repeat 7 990); PPut [97] [3]; PPut [100] (repeat 1 40)] in
  page_spec os = [([98; 98], []); ([99], repeat 7 990); ([97], [3])] /\
  getpair (fold_left pstep os zeropage) [97] = Some [3] /\ getpair (fold_left pstep os zeropage) [100] = None.
Proof. vm_compute. auto. Qed.

(** Splitting a page sends each pair to exactly one of the two pages, chosen by
    one bit of its hash, and loses nothing. *)
Theorem C04_page_split : forall os b,
  let p := fold_left pstep os zeropage in
  let ps := page_spec os in
  let left := fst (splpage p (2 ^ b)) in
  let right := snd (splpage p (2 ^ b)) in
  let goes kv := Z.testbit (sdbm_hash (fst kv)) b in
  0 <= b ->
  (forall k, getpair left k = assoc k (filter (fun kv => negb (goes kv)) ps)) /\
  (forall k, getpair right k = assoc k (filter goes ps)) /\
  (forall i, getnkey left (Z.of_nat i + 1) = option_map fst (nth_error (filter (fun kv => negb (goes kv)) ps) i)) /\
  (forall i, getnkey right (Z.of_nat i + 1) = option_map fst (nth_error (filter goes ps) i)) /\
  chkpage left = true /\ chkpage right = true.
Proof. exact page_split. Qed.
Print Assumptions C04_page_split.

Example C04_page_split_case :
  let p := fold_left pstep [PPut [97] [1]; PPut [98] [2]; PPut [99] [3]] zeropage in
  map (getpair (fst (splpage p 1))) [[97]; [98]; [99]] = [None; Some [2]; None] /\
  map (getpair (snd (splpage p 1))) [[97]; [98]; [99]] = [Some [1]; None; Some [3]].
Proof. vm_compute. auto. Qed.

(** As long as the directory file fits in one 4096-byte block, every history of
    stores, deletes, fetches, walks and reopenings is answered as a map would,
    and the file then holds that map.  MISSING: larger directories, where it is
    false (C05_big_directory_refuted). *)
Theorem C05_history_partial : forall rs d l, Forall small rs ->
  dbrun (sdbm_prep zerodisk false) rs = Some (d, l) -> dlen (dsk d) <= 1 ->
  exists ro m, spec_run false empty rs l ro m /\
    forall k, exists d1, sdbm_fetch d k = Some (d1, m k).
Proof. exact history. Qed.
Print Assumptions C05_history_partial.

(* four pairs of 305 bytes: the page has to be split; then a replacement, a
   refused insertion and a deletion *)
Example C05_history_case :
  let rs := [RStore [97] (xs 300) false; RStore [98] (xs 300) false; RStore [99] (xs 300) false;
             RStore [100] (xs 300) false; RStore [98] [1] true; RStore [99] [2] false; RDelete [100];
             RFetch [98]; RReopen false; RFetch [97]; RFetch [100]; RFetch [99]] in
  match dbrun (sdbm_prep zerodisk false) rs with
  | Some (d, l) =>
    l = [ACode 0; ACode 0; ACode 0; ACode 0; ACode 0; ACode 1; ACode 0;
         AVal (Some [1]); ACode 0; AVal (Some (xs 300)); AVal None; AVal (Some (xs 300))] /\
    dlen (dsk d) = 1 /\ plen (dsk d) = 2
  | None => False
  end.
Proof. vm_compute. auto. Qed.

(** Under the same condition no call runs into undefined behaviour. *)
Theorem C05_defined_partial : forall rs d l r, Forall small rs ->
  dbrun (sdbm_prep zerodisk false) rs = Some (d, l) -> dlen (dsk d) <= 1 -> small r ->
  exists d' a, dbstep d r = Some (d', a).
Proof. exact defined. Qed.
Print Assumptions C05_defined_partial.

Example C05_defined_case :
  match dbrun (sdbm_prep zerodisk false) [RStore [97] [1] true; RNext] with
  | Some (d, _) => dlen (dsk d) = 0
  | None => False
  end /\ small (RDelete [97]).
Proof. vm_compute. auto. Qed.

(** Three keys whose hashes agree in 21 bits, two failing stores: the directory
    grows by several blocks at once, getdbit reads past the end of the file into
    a stale buffer, and the pairs stored first can no longer be fetched although
    nothing touched them. *)
Theorem C05_big_directory_refuted : exists rs d l, Forall small rs /\
  dbrun (sdbm_prep zerodisk false) rs = Some (d, l) /\
  ~ exists ro m, spec_run false empty rs l ro m.
Proof. exact big_directory. Qed.
Print Assumptions C05_big_directory_refuted.

(** A walk (firstkey, then nextkey until the end) that is not interrupted by
    other calls returns every key stored exactly once. *)
Theorem C36_walk_partial : forall rs d l, Forall small rs ->
  dbrun (sdbm_prep zerodisk false) rs = Some (d, l) -> dlen (dsk d) <= 1 ->
  exists ks, NoDup ks /\
    (forall k, In k ks <-> exists d1 v, sdbm_fetch d k = Some (d1, Some v)) /\
    forall fuel, (length ks <= fuel)%nat -> exists d1, walk_keys fuel d = Some (d1, ks).
Proof. exact full_walk. Qed.
Print Assumptions C36_walk_partial.

Example C36_walk_case :
  let rs := [RStore [97] (xs 300) false; RStore [98] (xs 300) false; RStore [99] (xs 300) false;
             RStore [100] (xs 300) false] in
  match dbrun (sdbm_prep zerodisk false) rs with
  | Some (d, _) => dlen (dsk d) = 1 /\
     match walk_keys 4 d with Some (_, ks) => ks = [[98]; [100]; [97]; [99]] | None => False end
  | None => False
  end.
Proof. vm_compute. split; reflexivity. Qed.

(** A fetch between two nextkey calls makes the walk skip keys and repeat
    others. *)
Theorem C36_interrupted_walk_refuted :
  exists rs d l, dbrun (sdbm_prep zerodisk false) rs = Some (d, l) /\ dlen (dsk d) <= 1 /\
  exists q d' l', dbrun d (RFirst :: RFetch q :: repeat RNext 4) = Some (d', l') /\
    exists k d1 v, sdbm_fetch d k = Some (d1, Some v) /\ ~ In (AVal (Some k)) l'.
Proof. exact interrupted_walk. Qed.
Print Assumptions C36_interrupted_walk_refuted.

(** After the end of a walk nextkey starts to return keys again. *)
Theorem C36_after_end_refuted :
  exists rs d l, dbrun (sdbm_prep zerodisk false) rs = Some (d, l) /\ dlen (dsk d) <= 1 /\
  exists d' k, dbrun d [RFirst; RNext; RNext] = Some (d', [AVal (Some k); AVal None; AVal (Some k)]).
Proof. exact after_end. Qed.
Print Assumptions C36_after_end_refuted.

(** A crash in a call that writes at most one block (any delete, any store that
    does not split) leaves either the old or the new map.  MISSING: calls that
    split a page (C06_crash_refuted). *)
Theorem C06_single_write_partial : forall rs d l r d' a, Forall small rs ->
  dbrun (sdbm_prep zerodisk false) rs = Some (d, l) -> small r -> (forall ro, r <> RReopen ro) ->
  dbstep d r = Some (d', a) -> dlen (dsk d') <= 1 -> (length (writes d d') <= 1)%nat ->
  forall n ro, exists m,
    (forall k, exists d1, sdbm_fetch (sdbm_prep (crash d d' n) ro) k = Some (d1, m k)) /\
    ((forall k, exists d1, sdbm_fetch d k = Some (d1, m k)) \/
     (forall k, exists d1, sdbm_fetch d' k = Some (d1, m k))).
Proof. exact single_write. Qed.
Print Assumptions C06_single_write_partial.

Example C06_single_write_case :
  match dbrun (sdbm_prep zerodisk false) [RStore [97] [1] true; RStore [98] [2] true] with
  | Some (d, _) =>
    match dbstep d (RDelete [97]) with
    | Some (d', a) => a = ACode 0 /\ length (writes d d') = 1%nat /\ dlen (dsk d') = 0
    | None => False
    end
  | None => False
  end.
Proof. vm_compute. auto. Qed.

(** Whatever the moment of the crash, the old pairs a store can lose all lay on
    one page: a list of at most 1024 bytes of pairs. *)
Theorem C06_damage_confined_partial : forall rs d l k v b d' c, Forall small rs ->
  dbrun (sdbm_prep zerodisk false) rs = Some (d, l) ->
  sdbm_store d k v b = Some (d', c) -> dlen (dsk d') <= 1 ->
  exists ps, NoDup (map fst ps) /\ page_size ps <= 1024 /\
    (forall k1 v1, In (k1, v1) ps -> exists d1, sdbm_fetch d k1 = Some (d1, Some v1)) /\
    forall n ro k1 v1 d1, sdbm_fetch d k1 = Some (d1, Some v1) -> ~ In k1 (map fst ps) ->
    exists d2, sdbm_fetch (sdbm_prep (crash d d' n) ro) k1 = Some (d2, Some v1).
Proof. exact damage_confined. Qed.
Print Assumptions C06_damage_confined_partial.

Example C06_damage_confined_case :
  match dbrun (sdbm_prep zerodisk false)
          [RStore [97] (xs 300) false; RStore [98] (xs 300) false; RStore [99] (xs 300) false] with
  | Some (d, _) =>
    match sdbm_store d [101] (xs 300) false with
    | Some (d', c) => c = 0 /\ length (writes d d') = 3%nat /\ dlen (dsk d') = 1
    | None => False
    end
  | None => False
  end.
Proof. vm_compute. auto. Qed.

(** A crash after the first write of a split loses pairs stored long before. *)
Theorem C06_crash_refuted : exists rs d l k v d',
  dbrun (sdbm_prep zerodisk false) rs = Some (d, l) /\
  sdbm_store d k v false = Some (d', 0) /\
  exists n k1 v1 d1 d2, k1 <> k /\
    sdbm_fetch d k1 = Some (d1, Some v1) /\
    sdbm_fetch (sdbm_prep (crash d d' n) false) k1 = Some (d2, None).
Proof. exact crash_loses. Qed.
Print Assumptions C06_crash_refuted.

(** A store that inserts, or one rejected for the size of its argument or
    because the file is read-only, changes nothing when it fails. *)
Theorem C07_failed_store_partial : forall rs d l k v b d' c, Forall small rs ->
  dbrun (sdbm_prep zerodisk false) rs = Some (d, l) -> small (RStore k v b) ->
  sdbm_store d k v b = Some (d', c) -> c <> 0 -> dlen (dsk d') <= 1 ->
  b = false \/ k = [] \/ rdonly d = true \/ 1008 < dsize k + dsize v ->
  forall k1 d1 o, sdbm_fetch d k1 = Some (d1, o) -> exists d2, sdbm_fetch d' k1 = Some (d2, o).
Proof. exact failed_store. Qed.
Print Assumptions C07_failed_store_partial.

(* three keys with 11 equal hash bits; the third insertion cannot be placed *)
Example C07_failed_store_case :
  match dbrun (sdbm_prep zerodisk false)
          [RStore [97] (xs 480) false; RStore [97; 98; 98] (xs 480) false] with
  | Some (d, _) =>
    match sdbm_store d [98; 100; 99] (xs 480) false with
    | Some (d', c) => c = -1 /\ dlen (dsk d') = 1
    | None => False
    end
  | None => False
  end.
Proof. vm_compute. auto. Qed.

(** A failing store in replace mode has already deleted the old value. *)
Theorem C07_failed_replace_refuted : exists rs d l k v d',
  Forall small rs /\ dbrun (sdbm_prep zerodisk false) rs = Some (d, l) /\
  sdbm_store d k v true = Some (d', -1) /\ dlen (dsk d') <= 1 /\
  exists old d1 d2, sdbm_fetch d k = Some (d1, Some old) /\ sdbm_fetch d' k = Some (d2, None).
Proof. exact failed_replace. Qed.
Print Assumptions C07_failed_replace_refuted.

(** The Lisp function sdbm-delete passes the length of the key plus one: it never
    removes the key it is given, in any state. *)
Theorem C37_lisp_delete_never_deletes : forall rs d l k d' ok, Forall small rs ->
  dbrun (sdbm_prep zerodisk false) rs = Some (d, l) -> dlen (dsk d) <= 1 ->
  Fsdbm_delete d k = Some (d', ok) ->
  forall d1 o, Fsdbm_fetch d k = Some (d1, o) -> exists d2, Fsdbm_fetch d' k = Some (d2, o).
Proof. exact lisp_delete. Qed.
Print Assumptions C37_lisp_delete_never_deletes.

(** What it does remove is the key followed by a null byte. *)
Theorem C37_lisp_delete_refuted : exists rs d l d', 
  dbrun (sdbm_prep zerodisk false) rs = Some (d, l) /\
  Fsdbm_delete d [97] = Some (d', true) /\
  (exists d1 v, Fsdbm_fetch d [97; 0] = Some (d1, Some v)) /\
  (exists d2, Fsdbm_fetch d' [97; 0] = Some (d2, None)) /\
  (exists d3 v, Fsdbm_fetch d' [97] = Some (d3, Some v)).
Proof. exact lisp_delete_other. Qed.
Print Assumptions C37_lisp_delete_refuted.
