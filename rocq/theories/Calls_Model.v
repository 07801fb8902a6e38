(** Who gets the answers of remote procedure calls: lisp/rep/net/rpc.jl 123-128,
    151-204, 256-293, 325-340.

    Values sent are of an arbitrary type V (that they arrive as they were sent is C12, C35
    and C90); callbacks, sockets and servants are numbers. The counter of call ids is
    unbounded here; in the code ids are compared with eq, so beyond 2^61 calls answers
    would not be recognised. Not modelled: the cache of sockets by address (157, 164),
    proxies, and that socket-data-table is weak. *)

From Coq Require Import List Bool Arith.
Import ListNotations.

(** make-table, table-set, table-unset and table-ref with eq (184-185, 194, 201-203);
    what tables do is C04 *)
Fixpoint tref {A} (k : nat) (t : list (nat * A)) : option A :=
  match t with
  | [] => None
  | (k', a) :: t => if Nat.eqb k k' then Some a else tref k t
  end.
Definition tunset {A} (k : nat) (t : list (nat * A)) : list (nat * A) :=
  filter (fun e => negb (Nat.eqb k (fst e))) t.
Definition tset {A} (k : nat) (a : A) (t : list (nat * A)) : list (nat * A) := (k, a) :: tunset k t.
(** delq, lists.c: every element eq to the first argument *)
Definition delq (k : nat) (l : list nat) : list nat := filter (fun x => negb (Nat.eqb k x)) l.

Section Calls.
  Variable V : Type.
  (** The values sent for a lost connection (176) and for an unknown servant (272-274) *)
  Variable lost_value : V.
  Variable no_such : nat -> V.

  (** 280, 286, 291: the messages *)
  Inductive msg :=
  | MCall (id : option nat) (servant : nat) (args : V)
  | MResult (id : nat) (ok : bool) (v : V).

  (** What can be observed, the newest first; Noted is the entry into the table. *)
  Inductive event :=
  | Noted (id cb : nat)
  | Called (id cb : nat) (ok : bool) (v : V)
  | Wrote (sock : nat) (m : msg)
  | Closed (sock : nat).

  (** 123-128: of the data of a socket: closable and pending-calls (nil at first);
      188-191 counter, 185 pending-calls, 143 socket-data-table *)
  Record client := mkclient { counter : nat; table : list (nat * nat);
                              datas : list (nat * (bool * list nat)); log : list event }.
  Definition start : client := mkclient 0 [] [] [].

  (** The end of a function: normal or with an error signalled *)
  Inductive out := Fine (c : client) | Err (c : client).
  Definition state_of (o : out) : client := match o with Fine c => c | Err c => c end.

  Definition note (e : event) (c : client) : client := mkclient (counter c) (table c) (datas c) (e :: log c).

  (** 151-158 register-rpc-server *)
  Definition register (sock : nat) (closable : bool) (c : client) : out :=
    Fine (mkclient (counter c) (table c) (tset sock (closable, []) (datas c)) (log c)).

  (** 193-196 record-pending-call: the second step fails when the socket has no data
      (datum-ref of nil, datums.c 123) *)
  Definition record_pending_call (sock id cb : nat) (c : client) : out :=
    let c := mkclient (counter c) (tset id cb (table c)) (datas c) (Noted id cb :: log c) in
    match tref sock (datas c) with
    | None => Err c
    | Some (cl, l) => Fine (mkclient (counter c) (table c) (tset sock (cl, id :: l) (datas c)) (log c))
    end.

  (** 198-204 dispatch-pending-call. The callback is called last, so that what it does
      is as if done after this. *)
  Definition dispatch_pending_call (sock id : nat) (ok : bool) (v : V) (c : client) : out :=
    match tref sock (datas c) with
    | None => Err c
    | Some (cl, l) =>
        let c := mkclient (counter c) (table c) (tset sock (cl, delq id l) (datas c)) (log c) in
        match tref id (table c) with
        | None => Fine c
        | Some cb =>
            let c := mkclient (counter c) (tunset id (table c)) (datas c) (log c) in
            Fine (note (Called id cb ok v) c)
        end
    end.

  (** 173-177 mapc over the calls waiting *)
  Fixpoint fail_out (sock : nat) (l : list nat) (c : client) : out :=
    match l with
    | [] => Fine c
    | id :: l =>
        match dispatch_pending_call sock id false lost_value c with
        | Fine c => fail_out sock l c
        | e => e
        end
    end.

  (** 160-177 deregister-rpc-server: the data is removed (171) and then the calls are
      failed out *)
  Definition deregister (sock : nat) (c : client) : out :=
    match tref sock (datas c) with
    | None => Fine (note (Closed sock) c)
    | Some (closable, l) =>
        let c := if closable then note (Closed sock) c else c in
        fail_out sock l (mkclient (counter c) (table c) (tunset sock (datas c)) (log c))
    end.

  (** 284-288 invoke-method with 188-191 make-call-id, as by 311-312; what is written *)
  Definition invoke (sock cb servant : nat) (args : V) (c : client) : out * list msg :=
    let id := S (counter c) in
    let c := mkclient id (table c) (datas c) (log c) in
    match record_pending_call sock id cb c with
    | Err c => (Err c, [])
    | Fine c => let m := MCall (Some id) servant args in (Fine (note (Wrote sock m) c), [m])
    end.
  (** 290-293 invoke-oneway-method *)
  Definition invoke_oneway (sock servant : nat) (args : V) (c : client) : out * list msg :=
    let m := MCall None servant args in (Fine (note (Wrote sock m) c), [m]).

  (** One program's doings: any order, any arguments; results may come from anybody. *)
  Inductive op :=
  | Register (sock : nat) (closable : bool)
  | Deregister (sock : nat)
  | Call (sock cb servant : nat) (args : V)
  | Oneway (sock servant : nat) (args : V)
  | Result (sock id : nat) (ok : bool) (v : V).
  Definition step (o : op) (c : client) : client :=
    state_of
      match o with
      | Register sock closable => register sock closable c
      | Deregister sock => deregister sock c
      | Call sock cb servant args => fst (invoke sock cb servant args c)
      | Oneway sock servant args => fst (invoke_oneway sock servant args c)
      | Result sock id ok v => dispatch_pending_call sock id ok v c
      end.
  Definition run (ops : list op) : client := fold_left (fun c o => step o c) ops start.

  (** ** Two programs *)

  (** A call at work in the server: its id, servant and arguments, and whether the servant
      was found (271-274) *)
  Record job := mkjob { j_id : option nat; j_servant : nat; j_args : V; j_found : bool }.
  (** The client, the messages under way to the server, the calls at work there, the
      messages under way back, and what the server has done: the jobs taken and the jobs
      ended with their outcome, the newest first *)
  Record sys := mksys { cl : client; up : list msg; work : list job; down : list msg;
                        taken : list msg; ended : list (job * (bool * V)) }.

  (** 269-278: the outcome of a servant is arbitrary, by returning or by an exception, but
      that of an unknown one is its error; 279-282 the response *)
  Definition outcome (j : job) (o : bool * V) : bool * V :=
    if j_found j then o else (false, no_such (j_servant j)).
  Definition response (j : job) (o : bool * V) : list msg :=
    match j_id j with None => [] | Some id => [MResult id (fst o) (snd o)] end.

  Inductive move :=
  | MvCall (cb servant : nat) (args : V)
  | MvOneway (servant : nat) (args : V)
  (** the server reads a call while the servants satisfy the predicate (servant-ref 339) *)
  | MvTake (known : nat -> bool)
  (** the call number k of those at work ends; several are at work when a servant waits
      for input and so lets in other calls *)
  | MvEnd (k : nat) (o : bool * V)
  | MvRead.
  Definition remove_nth {A} (k : nat) (l : list A) : list A := firstn k l ++ skipn (S k) l.
  Definition sock0 := 0.
  Definition move_step (mv : move) (s : sys) : sys :=
    match mv with
    | MvCall cb servant args =>
        let (o, ms) := invoke sock0 cb servant args (cl s) in
        mksys (state_of o) (up s ++ ms) (work s) (down s) (taken s) (ended s)
    | MvOneway servant args =>
        let (o, ms) := invoke_oneway sock0 servant args (cl s) in
        mksys (state_of o) (up s ++ ms) (work s) (down s) (taken s) (ended s)
    | MvTake known =>
        match up s with
        | MCall id servant args :: up' =>
            mksys (cl s) up' (mkjob id servant args (known servant) :: work s) (down s)
                  (MCall id servant args :: taken s) (ended s)
        | MResult _ _ _ :: up' => mksys (cl s) up' (work s) (down s) (taken s) (ended s)
        | [] => s
        end
    | MvEnd k o =>
        match nth_error (work s) k with
        | None => s
        | Some j =>
            let o := outcome j o in
            mksys (cl s) (up s) (remove_nth k (work s)) (down s ++ response j o) (taken s) ((j, o) :: ended s)
        end
    | MvRead =>
        match down s with
        | MResult id ok v :: down' =>
            mksys (state_of (dispatch_pending_call sock0 id ok v (cl s))) (up s) (work s) down' (taken s) (ended s)
        | MCall _ _ _ :: down' => mksys (cl s) (up s) (work s) down' (taken s) (ended s)
        | [] => s
        end
    end.
  (** 218-227: a connection has been opened and registered *)
  Definition connected : sys := mksys (state_of (register sock0 true start)) [] [] [] [] [].
  Definition runs (mvs : list move) : sys := fold_left (fun s mv => move_step mv s) mvs connected.
End Calls.
