(** Model of a listening server: net/server/server.go, and of each connection the part of net/server/connection.go that
    talks to it. One step is one critical section, one channel operation or one event of the network.

    Simplifications. What a connection reads, answers and writes is ServerModel.v; here it has a reader, which may read a
    request or meet the end of the stream at any time, and a control loop, which learns at any time that the writer has
    ended. Run succeeds at once. Ids do not wrap around. The connection passed to Accept is a NetConn. *)
From Coq Require Import List Bool Arith.
Import ListNotations.

(** Connection.controlLoop, connection.go:125-153 *)
Inductive cpc :=
| CNone
| CServe      (* waiting for notices, :128 *)
| CFirst      (* cancelInFly: connClosed <- Id, :117 *)
| CMid        (* CloseRead, and waiting for the reader, :142-144, :128 *)
| CSecond     (* closed: connClosed <- Id, :123 *)
| CEnd.
(** Server.Stop, server.go:65-71 *)
Inductive spc := SNew | SSend (* holding the lock, :68 *) | SClose (* :70 *) | SRet.
(** controlLoop, server.go:73-98 *)
Inductive kpc := KSel | KConn (i : nat) (* :78 *) | KStop (* :86 *) | KEnd.
(** listenLoop, server.go:100-126 *)
Inductive lpc := LAccept | LErr (* :104 *) | LGot (* :115 *) | LEnd.
(** Server, net/server/server.go:13-26, its two loops and its connections (net/server/connection.go:30-45) *)
Record st := mkSt {
  conns : list nat; curId : nat;
  cp : nat -> cpc; rd : nat -> bool;      (* rd: the connection's reader runs *)
  closing : bool;
  stopq : bool;                           (* serv.stop, of capacity 1, is full *)
  lock : option nat;                      (* the call of Stop that waits with the lock held *)
  lclosed : bool;                         (* the listener is closed *)
  sp : nat -> spc; kp : kpc; lp : lpc }.
(** NewServer and Run, net/server/server.go:28-63 *)
Definition s_init : st := mkSt [] 0 (fun _ => CNone) (fun _ => false) false false None false (fun _ => SNew) KSel LAccept.
(** bookkeeping: a function changed at one argument *)
Definition upd {A} (f : nat -> A) (k : nat) (v : A) : nat -> A := fun i => if i =? k then v else f i.
(** bookkeeping: the state with one component replaced; the assignments of the steps below *)
Definition w_conns s v := mkSt v (curId s) (cp s) (rd s) (closing s) (stopq s) (lock s) (lclosed s) (sp s) (kp s) (lp s).
Definition w_cp s i v := mkSt (conns s) (curId s) (upd (cp s) i v) (rd s) (closing s) (stopq s) (lock s) (lclosed s) (sp s) (kp s) (lp s).
Definition w_rd s i v := mkSt (conns s) (curId s) (cp s) (upd (rd s) i v) (closing s) (stopq s) (lock s) (lclosed s) (sp s) (kp s) (lp s).
Definition w_closing s v := mkSt (conns s) (curId s) (cp s) (rd s) v (stopq s) (lock s) (lclosed s) (sp s) (kp s) (lp s).
Definition w_stopq s v := mkSt (conns s) (curId s) (cp s) (rd s) (closing s) v (lock s) (lclosed s) (sp s) (kp s) (lp s).
Definition w_lock s v := mkSt (conns s) (curId s) (cp s) (rd s) (closing s) (stopq s) v (lclosed s) (sp s) (kp s) (lp s).
Definition w_lclosed s v := mkSt (conns s) (curId s) (cp s) (rd s) (closing s) (stopq s) (lock s) v (sp s) (kp s) (lp s).
Definition w_sp s k v := mkSt (conns s) (curId s) (cp s) (rd s) (closing s) (stopq s) (lock s) (lclosed s) (upd (sp s) k v) (kp s) (lp s).
Definition w_kp s v := mkSt (conns s) (curId s) (cp s) (rd s) (closing s) (stopq s) (lock s) (lclosed s) (sp s) v (lp s).
Definition w_lp s v := mkSt (conns s) (curId s) (cp s) (rd s) (closing s) (stopq s) (lock s) (lclosed s) (sp s) (kp s) v.

(** bookkeeping: what can be observed from outside *)
Inductive obs :=
| OServe (i : nat)      (* a connection is accepted and served *)
| OReject               (* a connection is accepted and closed at once *)
| ORead (i : nat)       (* connection i reads a request and passes it on *)
| OWritten (i : nat)    (* the writer of connection i has ended: nothing more is written *)
| OTell (i : nat)       (* connection i is told to stop *)
| OGone (i : nat)       (* the last goroutine of connection i has ended *)
| OStopped (k : nat)    (* the k-th call of Stop returns *)
| OEnd.                 (* Running is closed *)
Inductive ev :=
| Accept (b : bool)     (* Accept returns a connection, or an error *)
| Listen                (* what listenLoop does next *)
| Stop (k : nat)        (* the k-th call of Stop begins or goes on *)
| TakeStop | TakeConn (i : nat) | Ctl                         (* server.go:77, :85; after the lock *)
| CRead (i : nat) | CEof (i : nat) | CWritten (i : nat) | CGo (i : nat).
(** bookkeeping: observations and the state after a step *)
Definition result := (list obs * st)%type.
(** bookkeeping: a step without observation *)
Definition ok (s : st) : result := ([], s).
(** sync.Mutex: nobody holds the lock *)
Definition free (s : st) : bool := match lock s with None => true | Some _ => false end.

(** server.go:100-126. After the listener is closed Accept fails. *)
Definition step_accept (s : st) (b : bool) : result :=
  match lp s with LAccept => ok (w_lp s (if b && negb (lclosed s) then LGot else LErr)) | _ => ok s end.
(** the next step of listenLoop, net/server/server.go:99-126 *)
Definition step_listen (s : st) : result :=
  if free s then
    match lp s with
    | LErr => ok (w_lp s (if closing s then LEnd else LAccept))
    | LGot =>
        if closing s then ([OReject], w_lp s LEnd)
        else let i := S (curId s) in
             ([OServe i], mkSt (i :: conns s) i (upd (cp s) i CServe) (upd (rd s) i true) (closing s) (stopq s) (lock s) (lclosed s) (sp s) (kp s) LAccept)
    | _ => ok s
    end
  else ok s.
(** server.go:65-71 *)
Definition step_stop (s : st) (k : nat) : result :=
  match sp s k with
  | SNew => if free s then ok (w_lock (w_closing (w_sp s k SSend) true) (Some k)) else ok s
  | SSend => if stopq s then ok s else ok (w_lock (w_stopq (w_sp s k SClose) true) None)
  | SClose => ([OStopped k], w_lclosed (w_sp s k SRet) true)
  | SRet => ok s
  end.
(** server.go:77-95 *)
Definition del (i : nat) (l : list nat) : list nat := remove Nat.eq_dec i l.
(** bookkeeping: is the list empty *)
Definition is_nil (l : list nat) : bool := match l with [] => true | _ => false end.
(** the next step of controlLoop, net/server/server.go:73-97 *)
Definition step_ctl (s : st) : result :=
  if free s then
    match kp s with
    | KConn i =>
        let s := w_conns s (del i (conns s)) in
        if closing s && is_nil (conns s) then ([OEnd], w_kp s KEnd) else ok (w_kp s KSel)
    | KStop =>
        let o := map OTell (conns s) in
        if is_nil (conns s) then (o ++ [OEnd], w_kp s KEnd) else (o, w_kp s KSel)
    | _ => ok s
    end
  else ok s.
(** one step: something arrives at the socket, Stop (net/server/server.go:65-71), the loops (:73-126), a connection (net/server/connection.go:70-157) *)
Definition step (s : st) (e : ev) : result :=
  match e with
  | Accept b => step_accept s b
  | Listen => step_listen s
  | Stop k => step_stop s k
  | TakeStop => match kp s with KSel => if stopq s then ok (w_kp (w_stopq s false) KStop) else ok s | _ => ok s end
  | TakeConn i =>
      match kp s with
      | KSel => match cp s i with
                | CFirst => ok (w_kp (w_cp s i CMid) (KConn i))
                | CSecond => ([OGone i], w_kp (w_cp s i CEnd) (KConn i))
                | _ => ok s
                end
      | _ => ok s
      end
  | Ctl => step_ctl s
  | CRead i => if rd s i then ([ORead i], s) else ok s
  | CEof i => ok (w_rd s i false)
  | CWritten i => match cp s i with CServe => ([OWritten i], w_cp s i CFirst) | _ => ok s end
  | CGo i => match cp s i with CMid => if rd s i then ok s else ok (w_cp s i CSecond) | _ => ok s end
  end.
(** bookkeeping: a schedule, event by event *)
Fixpoint run (s : st) (es : list ev) : result :=
  match es with
  | [] => ([], s)
  | e :: es => let '(o, s) := step s e in let '(o', s') := run s es in (o ++ o', s')
  end.
(** bookkeeping: a schedule from the initial state *)
Definition start (es : list ev) : result := run s_init es.
