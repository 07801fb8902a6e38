(* Model of src/sdbm_pair.c, src/sdbm_hash.c, src/sdbm.c and the key handling
   of src/repsdbm.c.

   Bytes are integers 0..255; a datum is a list of bytes (its dsize is the
   length of the list), a null datum is None.  Lengths are C ints: strings of
   2 GB and more are outside the model (repsdbm.c:102 and 123 store a long
   length in an int field).  The host is little endian with 16-bit shorts. *)
From Coq Require Import ZArith List Bool.
Import ListNotations.
Open Scope Z_scope.

(* Two's complement value of the low n bits of x: C conversion to a signed
   type of n bits. *)
Definition wrap (n x : Z) : Z := (x + 2 ^ (n - 1)) mod 2 ^ n - 2 ^ (n - 1).

(* sdbm.h:7-8 (DBLKSIZ 4096, PBLKSIZ 1024), sdbm.h:9 (PAIRMAX 1008),
   sdbm.h:10 (SPLTMAX 10), sdbm_tune.h:7 (BYTESIZ 8). *)
Definition PBLKSIZ : Z := 1024.
Definition DBLKSIZ : Z := 4096.
Definition PAIRMAX : Z := 1008.
Definition SPLTMAX : nat := 10.
Definition BYTESIZ : Z := 8.

Definition datum := list Z.
Definition dsize (d : datum) : Z := Z.of_nat (length d).

(* A page buffer: the byte at each offset 0..1023.  Offsets outside are other
   memory; the theorems show they are not written. *)
Definition page := Z -> Z.

Definition upd (p : page) (a v : Z) : page := fun x => if x =? a then v else p x.

(* The short  ino[i]  of  short *ino = (short * ) pag. *)
Definition ino (p : page) (i : Z) : Z := wrap 16 (p (2 * i) + 256 * p (2 * i + 1)).
Definition set_ino (p : page) (i v : Z) : page :=
  upd (upd p (2 * i) (v mod 256)) (2 * i + 1) ((v / 256) mod 256).

(* memcpy (pag + a, l, length l) *)
Fixpoint memcpy (p : page) (a : Z) (l : list Z) : page :=
  match l with
  | [] => p
  | b :: r => memcpy (upd p a b) (a + 1) r
  end.

(* The n bytes at pag + a. *)
Definition bytes (p : page) (a n : Z) : list Z :=
  map (fun j => p (a + Z.of_nat j)) (seq 0 (Z.to_nat n)).

Fixpoint eqbytes (a b : list Z) : bool :=
  match a, b with
  | [], [] => true
  | x :: a', y :: b' => (x =? y) && eqbytes a' b'
  | _, _ => false
  end.

(* memset (pag, 0, PBLKSIZ) *)
Definition zeropage : page := fun _ => 0.

(* sdbm_pair.c:53, 74: the offset of the end of the free area *)
Definition top (p : page) : Z :=
  let n := ino p 0 in if 0 <? n then ino p n else PBLKSIZ.

(* sdbm_pair.c:45-62 *)
Definition fitpair (p : page) (need : Z) : bool :=
  let n := ino p 0 in
  let free := top p - (n + 1) * 2 in
  (need + 2 * 2) <=? free.

(* sdbm_pair.c:64-91 *)
Definition putpair (p : page) (key val : datum) : page :=
  let n := ino p 0 in
  let off := top p - dsize key in
  let p := memcpy p off key in
  let p := set_ino p (n + 1) off in
  let off := off - dsize val in
  let p := memcpy p off val in
  let p := set_ino p (n + 2) off in
  set_ino p 0 (ino p 0 + 2).

(* sdbm_pair.c:218-236.  At most n iterations. *)
Fixpoint seepair_loop (fuel : nat) (p : page) (n : Z) (key : datum) (off i : Z) : Z :=
  match fuel with
  | O => 0
  | S f =>
    if i <? n then
      if (dsize key =? off - ino p i) && eqbytes key (bytes p (ino p i) (dsize key))
      then i
      else seepair_loop f p n key (ino p (i + 1)) (i + 2)
    else 0
  end.
Definition seepair (p : page) (n : Z) (key : datum) : Z :=
  seepair_loop (Z.to_nat n) p n key PBLKSIZ 1.

(* sdbm_pair.c:93-112 *)
Definition getpair (p : page) (key : datum) : option datum :=
  let n := ino p 0 in
  if n =? 0 then None
  else
    let i := seepair p n key in
    if i =? 0 then None
    else Some (bytes p (ino p (i + 1)) (ino p i - ino p (i + 1))).

(* sdbm_pair.c:114-123 *)
Definition duppair (p : page) (key : datum) : bool :=
  (0 <? ino p 0) && (0 <? seepair p (ino p 0) key).

(* sdbm_pair.c:125-144 *)
Definition getnkey (p : page) (num : Z) : option datum :=
  let num := num * 2 - 1 in
  if (ino p 0 =? 0) || (ino p 0 <? num) then None
  else
    let off := if 1 <? num then ino p (num - 1) else PBLKSIZ in
    Some (bytes p (ino p num) (off - ino p num)).

(* sdbm_pair.c:193-194   while (m--) *--dst = *--src;
   A negative m (impossible on a well formed page) would run away; here it
   does nothing.  DUFF and MEMMOVE are not defined by the build. *)
Fixpoint movb (m : nat) (p : page) (dst src : Z) : page :=
  match m with
  | O => p
  | S m' => movb m' (upd p (dst - 1) (p (src - 1))) (dst - 1) (src - 1)
  end.

(* sdbm_pair.c:201-204, at most n iterations *)
Fixpoint adjust (fuel : nat) (p : page) (i n zoo : Z) : page :=
  match fuel with
  | O => p
  | S f =>
    if i <? n - 1 then adjust f (set_ino p i (ino p (i + 2) + zoo)) (i + 1) n zoo
    else p
  end.

(* sdbm_pair.c:146-211; None is the result 0 (not found) *)
Definition delpair (p : page) (key : datum) : option page :=
  let n := ino p 0 in
  if n =? 0 then None
  else
    let i := seepair p n key in
    if i =? 0 then None
    else
      let p :=
        if i <? n - 1 then
          let dst := if i =? 1 then PBLKSIZ else ino p (i - 1) in
          let src := ino p (i + 1) in
          let zoo := dst - src in
          let m := ino p (i + 1) - ino p n in
          let p := movb (Z.to_nat m) p dst src in
          adjust (Z.to_nat n) p i n zoo
        else p in
      Some (set_ino p 0 (ino p 0 - 2)).

(* sdbm_hash.c:20-47; char is signed, arithmetic is modulo 2^64 and the result
   is a long *)
Definition schar (c : Z) : Z := if c <? 128 then c else c - 256.
Definition sdbm_hash (l : datum) : Z :=
  fold_left (fun n c => wrap 64 (schar c + 65599 * n)) l 0.

(* sdbm_pair.c:254-269.  cur is the saved copy, i the index of ino[0] in the
   loop; at most n iterations. *)
Fixpoint spl_loop (fuel : nat) (cur : page) (sbit : Z) (pag new : page)
                  (off i n : Z) : page * page :=
  match fuel with
  | O => (pag, new)
  | S f =>
    if 0 <? n then
      let key := bytes cur (ino cur i) (off - ino cur i) in
      let val := bytes cur (ino cur (i + 1)) (ino cur i - ino cur (i + 1)) in
      if Z.land (sdbm_hash key) sbit =? 0
      then spl_loop f cur sbit (putpair pag key val) new (ino cur (i + 1)) (i + 2) (n - 2)
      else spl_loop f cur sbit pag (putpair new key val) (ino cur (i + 1)) (i + 2) (n - 2)
    else (pag, new)
  end.

(* sdbm_pair.c:238-274: the pair (pag, new) after the split *)
Definition splpage (p : page) (sbit : Z) : page * page :=
  spl_loop (Z.to_nat (ino p 0)) p sbit zeropage zeropage PBLKSIZ 1 (ino p 0).

(* sdbm_pair.c:282-304.  With n = 511 or 512 the code reads two bytes past the
   page; the model reads whatever is there. *)
Fixpoint chk_loop (fuel : nat) (p : page) (off i n : Z) : bool :=
  match fuel with
  | O => true
  | S f =>
    if 0 <? n then
      if (off <? ino p i) || (off <? ino p (i + 1)) || (ino p i <? ino p (i + 1))
      then false
      else chk_loop f p (ino p (i + 1)) (i + 2) (n - 2)
    else true
  end.
Definition chkpage (p : page) : bool :=
  let n := ino p 0 in
  if (n <? 0) || (PBLKSIZ / 2 <? n) then false
  else chk_loop (Z.to_nat n) p PBLKSIZ 1 n.

(* One request to a page as sdbm.c:239-255 and 197 make them: a pair is put
   only when it fits; deleting an absent key changes nothing. *)
Inductive pagereq := PPut (k v : datum) | PDel (k : datum).
Definition pstep (p : page) (o : pagereq) : page :=
  match o with
  | PPut k v => if fitpair p (dsize k + dsize v) then putpair p k v else p
  | PDel k => match delpair p k with Some p' => p' | None => p end
  end.

(** * The files and the database handle *)

Definition dirblk := Z -> Z.   (* bytes 0..4095 of a directory block *)

(* The two files, in whole blocks.  Blocks below the length that were never
   written (holes) are zero.  A write of a block is atomic; input/output errors
   and files that are not a whole number of blocks are not modelled. *)
Record disk := mkDisk {
  plen : Z; pblk : Z -> page;     (* the .pag file *)
  dlen : Z; dblk : Z -> dirblk    (* the .dir file *)
}.

Definition zerodisk : disk := mkDisk 0 (fun _ => zeropage) 0 (fun _ => fun _ => 0).

Inductive wr := WPag (b : Z) (p : page) | WDir (b : Z) (d : dirblk).

Definition apply_wr (d : disk) (w : wr) : disk :=
  match w with
  | WPag b p => mkDisk (Z.max (plen d) (b + 1)) (fun x => if x =? b then p else pblk d x)
                       (dlen d) (dblk d)
  | WDir b p => mkDisk (plen d) (pblk d)
                       (Z.max (dlen d) (b + 1)) (fun x => if x =? b then p else dblk d x)
  end.

(* sdbm.h:15-30, the SDBM struct.  ppos is the file position of pagf in blocks;
   trace records every block written (it is not part of the program). *)
Record db := mkDb {
  dsk : disk;
  ppos : Z;
  ioerr : bool; rdonly : bool;
  maxbno : Z; curbit : Z; hmask : Z;
  blkptr : Z; keyptr : Z;
  pagbno : Z; pagbuf : page;
  dirbno : Z; dirbuf : dirblk;
  trace : list wr
}.

(* sdbm.c:99-157 (sdbm_prep), for files that exist or were created; O_TRUNC
   corresponds to opening zerodisk *)
Definition sdbm_prep (d : disk) (ro : bool) : db :=
  mkDb d 0 false ro
       (dlen d * DBLKSIZ * BYTESIZ) 0 0
       0 0
       (-1) zeropage
       (if dlen d =? 0 then 0 else -1) (fun _ => 0)
       [].

Definition set_ioerr (d : db) : db :=
  mkDb (dsk d) (ppos d) true (rdonly d) (maxbno d) (curbit d) (hmask d) (blkptr d)
       (keyptr d) (pagbno d) (pagbuf d) (dirbno d) (dirbuf d) (trace d).
Definition set_pagbuf (d : db) (p : page) : db :=
  mkDb (dsk d) (ppos d) (ioerr d) (rdonly d) (maxbno d) (curbit d) (hmask d) (blkptr d)
       (keyptr d) (pagbno d) p (dirbno d) (dirbuf d) (trace d).
Definition set_pagbno (d : db) (b : Z) : db :=
  mkDb (dsk d) (ppos d) (ioerr d) (rdonly d) (maxbno d) (curbit d) (hmask d) (blkptr d)
       (keyptr d) b (pagbuf d) (dirbno d) (dirbuf d) (trace d).
Definition set_ppos (d : db) (b : Z) : db :=
  mkDb (dsk d) b (ioerr d) (rdonly d) (maxbno d) (curbit d) (hmask d) (blkptr d)
       (keyptr d) (pagbno d) (pagbuf d) (dirbno d) (dirbuf d) (trace d).
Definition set_walk (d : db) (bp kp : Z) : db :=
  mkDb (dsk d) (ppos d) (ioerr d) (rdonly d) (maxbno d) (curbit d) (hmask d) bp kp
       (pagbno d) (pagbuf d) (dirbno d) (dirbuf d) (trace d).
Definition set_cur (d : db) (cb hm : Z) : db :=
  mkDb (dsk d) (ppos d) (ioerr d) (rdonly d) (maxbno d) cb hm (blkptr d) (keyptr d)
       (pagbno d) (pagbuf d) (dirbno d) (dirbuf d) (trace d).
Definition set_dir (d : db) (b : Z) (buf : dirblk) : db :=
  mkDb (dsk d) (ppos d) (ioerr d) (rdonly d) (maxbno d) (curbit d) (hmask d) (blkptr d)
       (keyptr d) (pagbno d) (pagbuf d) b buf (trace d).
Definition set_maxbno (d : db) (m : Z) : db :=
  mkDb (dsk d) (ppos d) (ioerr d) (rdonly d) m (curbit d) (hmask d) (blkptr d)
       (keyptr d) (pagbno d) (pagbuf d) (dirbno d) (dirbuf d) (trace d).
Definition do_write (d : db) (w : wr) (pos : Z) : db :=
  mkDb (apply_wr (dsk d) w) pos (ioerr d) (rdonly d) (maxbno d) (curbit d) (hmask d)
       (blkptr d) (keyptr d) (pagbno d) (pagbuf d) (dirbno d) (dirbuf d)
       (trace d ++ [w]).

(* lseek (pagf, OFF_PAG (b)); write (pagf, p, PBLKSIZ)   (sdbm.c:202, 257, 305, ...) *)
Definition write_pag (d : db) (b : Z) (p : page) : db := do_write d (WPag b p) (b + 1).

(* read (pagf, pagbuf, PBLKSIZ) at the current position (sdbm.c:362, 413, 504).
   At or past the end of the file read returns 0 and the buffer keeps its old
   contents.  The boolean says whether a block was read. *)
Definition read_pag (d : db) : db * bool :=
  if ppos d <? plen (dsk d)
  then (set_ppos (set_pagbuf d (pblk (dsk d) (ppos d))) (ppos d + 1), true)
  else (d, false).

(* sdbm.c:435-442 and 458-465: load directory block b unless it is cached; past
   the end of the file the buffer keeps its old contents *)
Definition load_dir (d : db) (b : Z) : db :=
  if b =? dirbno d then d
  else set_dir d b (if b <? dlen (dsk d) then dblk (dsk d) b else dirbuf d).

(* sdbm.c:424-445 *)
Definition getdbit (d : db) (dbit : Z) : db * bool :=
  let c := dbit / BYTESIZ in
  let d := load_dir d (c / DBLKSIZ) in
  (d, negb (Z.land (dirbuf d (c mod DBLKSIZ)) (2 ^ (dbit mod BYTESIZ)) =? 0)).

(* sdbm.c:447-477.  maxbno is raised by one block only. *)
Definition setdbit (d : db) (dbit : Z) : db :=
  let c := dbit / BYTESIZ in
  let dirb := c / DBLKSIZ in
  let d := load_dir d dirb in
  let o := c mod DBLKSIZ in
  let buf := upd (dirbuf d) o (Z.lor (dirbuf d o) (2 ^ (dbit mod BYTESIZ))) in
  let d := set_dir d (dirbno d) buf in
  let d := if maxbno d <=? dbit then set_maxbno d (maxbno d + DBLKSIZ * BYTESIZ) else d in
  do_write d (WDir dirb buf) (ppos d).

(* sdbm.c:54-63: the 32 masks 2^k - 1; sdbm.c:395: 1 << hbit is an int. *)
Definition mask (hbit : nat) : Z := 2 ^ Z.of_nat hbit - 1.
Definition hbit_set (hash : Z) (hbit : nat) : bool :=
  negb (Z.land hash (wrap 32 (2 ^ Z.of_nat hbit)) =? 0).

(* sdbm.c:394-395; None when hbit would reach 32, where 1 << hbit is undefined
   and masks[hbit] is outside the array *)
Fixpoint walk_loop (fuel : nat) (d : db) (hash dbit : Z) (hbit : nat) : option (db * Z * nat) :=
  match fuel with
  | O => None
  | S f =>
    if dbit <? maxbno d then
      let '(d, b) := getdbit d dbit in
      if b then walk_loop f d hash (2 * dbit + (if hbit_set hash hbit then 2 else 1)) (S hbit)
      else Some (d, dbit, hbit)
    else Some (d, dbit, hbit)
  end.

(* sdbm.c:383-422; the boolean is the C result *)
Definition getpage (d : db) (hash : Z) : option (db * bool) :=
  match walk_loop 32 d hash 0 0 with
  | None => None
  | Some (d, dbit, hbit) =>
    let d := set_cur d dbit (mask hbit) in
    let pagb := Z.land hash (hmask d) in
    if pagb =? pagbno d then Some (d, true)
    else
      let '(d, _) := read_pag (set_ppos d pagb) in
      if chkpage (pagbuf d) then Some (set_pagbno d pagb, true)
      else Some (d, false)
  end.

(* sdbm.c:47: a datum is bad if it is null or empty *)
Definition bad (key : datum) : bool := dsize key <=? 0.

(* sdbm.c:172-184 *)
Definition sdbm_fetch (d : db) (key : datum) : option (db * option datum) :=
  if bad key then Some (d, None)
  else
    match getpage d (sdbm_hash key) with
    | None => None
    | Some (d, true) => Some (d, getpair (pagbuf d) key)
    | Some (d, false) => Some (set_ioerr d, None)
    end.

(* sdbm.c:186-210; the result is the C int *)
Definition sdbm_delete (d : db) (key : datum) : option (db * Z) :=
  if bad key then Some (d, -1)
  else if rdonly d then Some (d, -1)
  else
    match getpage d (sdbm_hash key) with
    | None => None
    | Some (d, true) =>
      match delpair (pagbuf d) key with
      | None => Some (d, -1)
      | Some p => Some (write_pag (set_pagbuf d p) (pagbno d) p, 0)
      end
    | Some (d, false) => Some (set_ioerr d, -1)
    end.

(* sdbm.c:286-336: smax counts the iterations left *)
Fixpoint makroom_loop (smax : nat) (d : db) (hash need : Z) : db * bool :=
  match smax with
  | O => (d, false)
  | S smax' =>
    let '(pag, new) := splpage (pagbuf d) (hmask d + 1) in
    let d := set_pagbuf d pag in
    let newp := Z.lor (Z.land hash (hmask d)) (hmask d + 1) in
    let right := negb (Z.land hash (hmask d + 1) =? 0) in
    let d :=
      if right
      then set_pagbuf (set_pagbno (write_pag d (pagbno d) (pagbuf d)) newp) new
      else write_pag d newp new in
    let d := setdbit d (curbit d) in
    if fitpair (pagbuf d) need then (d, true)
    else
      let d := set_cur d (2 * curbit d + (if right then 2 else 1))
                         (Z.lor (hmask d) (hmask d + 1)) in
      let d := write_pag d (pagbno d) (pagbuf d) in
      makroom_loop smax' d hash need
  end.
(* sdbm.c:274-346 *)
Definition makroom (d : db) (hash need : Z) : db * bool :=
  makroom_loop SPLTMAX d hash need.

(* sdbm.c:212-267; replace is flags == SDBM_REPLACE; the result is the C int *)
Definition sdbm_store (d : db) (key val : datum) (replace : bool) : option (db * Z) :=
  if bad key then Some (d, -1)
  else if rdonly d then Some (d, -1)
  else
    let need := wrap 32 (dsize key + dsize val) in
    if (need <? 0) || (PAIRMAX <? need) then Some (d, -1)
    else
      let hash := sdbm_hash key in
      match getpage d hash with
      | None => None
      | Some (d, false) => Some (set_ioerr d, -1)
      | Some (d, true) =>
        if negb replace && duppair (pagbuf d) key then Some (d, 1)
        else
          let d := if replace
                   then match delpair (pagbuf d) key with
                        | Some p => set_pagbuf d p
                        | None => d
                        end
                   else d in
          let '(d, ok) :=
            if fitpair (pagbuf d) need then (d, true) else makroom d hash need in
          if ok then
            let p := putpair (pagbuf d) key val in
            Some (write_pag (set_pagbuf d p) (pagbno d) p, 0)
          else Some (set_ioerr d, -1)
      end.

(* sdbm.c:483-511.  Each turn of the loop that does not return reads the next
   block, so plen + 1 turns are enough; running out of fuel gives None. *)
Fixpoint getnext_loop (fuel : nat) (d : db) : option (db * option datum) :=
  match fuel with
  | O => None
  | S f =>
    let d := set_walk d (blkptr d) (keyptr d + 1) in
    match getnkey (pagbuf d) (keyptr d) with
    | Some k => Some (d, Some k)
    | None =>
      let seek := negb (pagbno d =? blkptr d) in
      let d := set_walk d (blkptr d + 1) 0 in
      let d := if seek then set_ppos d (blkptr d) else d in
      let d := set_pagbno d (blkptr d) in
      let '(d, got) := read_pag d in
      if got then
        if chkpage (pagbuf d) then getnext_loop f d
        else Some (set_ioerr d, None)
      else Some (set_ioerr d, None)
    end
  end.
Definition getnext (d : db) : option (db * option datum) :=
  getnext_loop (Z.to_nat (plen (dsk d)) + 2) d.

(* sdbm.c:352-369 *)
Definition sdbm_firstkey (d : db) : option (db * option datum) :=
  let '(d, _) := read_pag (set_ppos d 0) in
  getnext (set_walk (set_pagbno d 0) 0 0).

(* sdbm.c:371-378 *)
Definition sdbm_nextkey (d : db) : option (db * option datum) := getnext d.

(** * src/repsdbm.c *)

(* repsdbm.c:92-107: the key is the bytes of the string *)
Definition Fsdbm_fetch (d : db) (key : datum) : option (db * option datum) :=
  sdbm_fetch d key.

(* repsdbm.c:109-126; flags is insert or anything else; true is the result t *)
Definition Fsdbm_store (d : db) (key val : datum) (insert : bool) : option (db * bool) :=
  match sdbm_store d key val (negb insert) with
  | None => None
  | Some (d, r) => Some (d, r =? 0)
  end.

(* repsdbm.c:128-139: the length passed is the length of the string PLUS ONE,
   so the terminating null byte of the string belongs to the key *)
Definition Fsdbm_delete (d : db) (key : datum) : option (db * bool) :=
  match sdbm_delete d (key ++ [0]) with
  | None => None
  | Some (d, r) => Some (d, r =? 0)
  end.

(** * Sequences of calls *)

Inductive req :=
| RFetch (k : datum) | RStore (k v : datum) (replace : bool) | RDelete (k : datum)
| RFirst | RNext | RReopen (ro : bool).
Inductive ans := AVal (o : option datum) | ACode (r : Z).

Definition dbstep (d : db) (r : req) : option (db * ans) :=
  match r with
  | RFetch k => match sdbm_fetch d k with Some (d, o) => Some (d, AVal o) | None => None end
  | RStore k v b => match sdbm_store d k v b with Some (d, c) => Some (d, ACode c) | None => None end
  | RDelete k => match sdbm_delete d k with Some (d, c) => Some (d, ACode c) | None => None end
  | RFirst => match sdbm_firstkey d with Some (d, o) => Some (d, AVal o) | None => None end
  | RNext => match sdbm_nextkey d with Some (d, o) => Some (d, AVal o) | None => None end
  | RReopen ro => Some (sdbm_prep (dsk d) ro, ACode 0)
  end.

Fixpoint dbrun (d : db) (rs : list req) : option (db * list ans) :=
  match rs with
  | [] => Some (d, [])
  | r :: rs' =>
    match dbstep d r with
    | None => None
    | Some (d, a) =>
      match dbrun d rs' with
      | None => None
      | Some (d, l) => Some (d, a :: l)
      end
    end
  end.

(* A walk: sdbm_firstkey, then sdbm_nextkey until it returns the null datum;
   None when fuel runs out first. *)
Fixpoint walk_rest (fuel : nat) (d : db) : option (db * list datum) :=
  match fuel with
  | O => None
  | S f =>
    match sdbm_nextkey d with
    | None => None
    | Some (d, None) => Some (d, [])
    | Some (d, Some k) =>
      match walk_rest f d with
      | None => None
      | Some (d, l) => Some (d, k :: l)
      end
    end
  end.
Definition walk_keys (fuel : nat) (d : db) : option (db * list datum) :=
  match sdbm_firstkey d with
  | None => None
  | Some (d, None) => Some (d, [])
  | Some (d, Some k) =>
    match walk_rest fuel d with
    | None => None
    | Some (d, l) => Some (d, k :: l)
    end
  end.

(* The process dies during the call that leads from d to d', after n of the
   writes of that call have reached the disk: the two files that are left. *)
Definition replay (ws : list wr) (dk : disk) : disk := fold_left apply_wr ws dk.
Definition writes (d d' : db) : list wr := skipn (length (trace d)) (trace d').
Definition crash (d d' : db) (n : nat) : disk := replay (firstn n (writes d d')) (dsk d).
