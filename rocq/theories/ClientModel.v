(** Model of the client endpoint's connection management: net/client/server.go, and of each connection the part of
    net/client/connection/connection.go that talks to it. One step is one channel operation, one access to a shared field or
    one turn of the server's loop.

    Simplifications. What goes over the wire is left out (HolderModel.v, WireModel.v): the peer, the network, the users'
    requests and the ping ticker appear as events which may happen at any time the connection waits for them. A turn of the
    server's loop is one step, except for fixConnections stopping connections, where Stop blocks. The requests in flight on a
    connection are not modelled; [OFlush] marks the moment flushInFly fails them. readEmpty notices, which only lead to
    CloseRead, are left out: the reader may end at any time. SetConnections never blocks. *)
From Coq Require Import List Bool Arith ZArith.
Import ListNotations.
Open Scope Z_scope.

(** connection.go:40-47: State is one of the first three, or a combination of the two closed bits *)
Inductive cstate := CsNew | CsDialing | CsConnected | CsClosing (r w : bool).
(** Connection.Loop, connection.go:103-130 *)
Inductive lpc :=
| L0            (* :103-105 *)
| LDial         (* :106-118 *)
| LSendErr      (* :107, :120 *)
| LSendOk       (* :124 *)
| LSet          (* :125-128 *)
| LUnset        (* :108, :121 *)
| LFailed | LOk.
(** writeLoop, connection.go:230-305 *)
Inductive wpc :=
| WOff
| WTop          (* :262-265 *)
| WSel1         (* :267-272 *)
| WSel2         (* :273-280 *)
| WReq          (* :283-303 *)
| WNote         (* :250 *)
| WMsg          (* :251 *)
| WEnd.
(** readLoop, connection.go:204-226 *)
Inductive rpc := ROff | RRun | RNote | REnd.
(** controlLoop and controlLoopExit, connection.go:146-184 *)
Inductive kpc := KOff | KRun | KMsg | KFlush | KEnd.
(** readClosed and writeClosed, net/client/connection/connection.go:16-22 *)
Inductive note := NWrite | NRead.
Record conn := mkConn {
  cs : cstate; cl : lpc; cw : wpc; cr : rpc; ck : kpc; notes : list note;
  stopped : bool }.        (* SimplePoint.stopped, service.go:69 *)
(** NewConnection, connection.go:87-98, started by RunChild *)
Definition new_conn : conn := mkConn CsNew L0 WOff ROff KOff [] false.

(** Error.When with Error.Error, connection.go:26-36 *)
Inductive kind := KDialOk | KDialErr | KWrite | KRead.
(** Server.Loop and fixConnections, server.go:88-142 *)
Inductive spc :=
| SIdle                                                   (* :125-135 *)
| SFix (k : Z) (todo : list nat)                          (* :97-113 *)
| SStop (i : nat) (d : bool) (k : Z) (todo : list nat)   (* conn.Stop() at :101, :105 *)
| SDone.
(** Server, server.go:34-54 *)
Record st := mkSt {
  conns : list nat; curId : nat; cn : nat -> conn;
  need : Z; dialing : Z; est : Z; dying : Z;
  ch : list (nat * kind);      (* connErr *)
  acts : list Z; xreq : bool; exiting : bool;
  sp : spc }.
Definition cap : nat := 4.      (* server.go:77 *)

(** bookkeeping: a function with one value replaced *)
Definition upd {A} (f : nat -> A) (k : nat) (v : A) : nat -> A := fun i => if (i =? k)%nat then v else f i.
(** bookkeeping: the state with one component replaced; the assignments of the steps below *)
Definition w_conns s v := mkSt v (curId s) (cn s) (need s) (dialing s) (est s) (dying s) (ch s) (acts s) (xreq s) (exiting s) (sp s).
Definition w_cn s i v := mkSt (conns s) (curId s) (upd (cn s) i v) (need s) (dialing s) (est s) (dying s) (ch s) (acts s) (xreq s) (exiting s) (sp s).
Definition w_need s v := mkSt (conns s) (curId s) (cn s) v (dialing s) (est s) (dying s) (ch s) (acts s) (xreq s) (exiting s) (sp s).
Definition w_dialing s v := mkSt (conns s) (curId s) (cn s) (need s) v (est s) (dying s) (ch s) (acts s) (xreq s) (exiting s) (sp s).
Definition w_est s v := mkSt (conns s) (curId s) (cn s) (need s) (dialing s) v (dying s) (ch s) (acts s) (xreq s) (exiting s) (sp s).
Definition w_dying s v := mkSt (conns s) (curId s) (cn s) (need s) (dialing s) (est s) v (ch s) (acts s) (xreq s) (exiting s) (sp s).
Definition w_ch s v := mkSt (conns s) (curId s) (cn s) (need s) (dialing s) (est s) (dying s) v (acts s) (xreq s) (exiting s) (sp s).
Definition w_acts s v := mkSt (conns s) (curId s) (cn s) (need s) (dialing s) (est s) (dying s) (ch s) v (xreq s) (exiting s) (sp s).
Definition w_xreq s v := mkSt (conns s) (curId s) (cn s) (need s) (dialing s) (est s) (dying s) (ch s) (acts s) v (exiting s) (sp s).
Definition w_exiting s v := mkSt (conns s) (curId s) (cn s) (need s) (dialing s) (est s) (dying s) (ch s) (acts s) (xreq s) v (sp s).
Definition w_sp s v := mkSt (conns s) (curId s) (cn s) (need s) (dialing s) (est s) (dying s) (ch s) (acts s) (xreq s) (exiting s) v.
Definition c_cs c v := mkConn v (cl c) (cw c) (cr c) (ck c) (notes c) (stopped c).
Definition c_cl c v := mkConn (cs c) v (cw c) (cr c) (ck c) (notes c) (stopped c).
Definition c_cw c v := mkConn (cs c) (cl c) v (cr c) (ck c) (notes c) (stopped c).
Definition c_cr c v := mkConn (cs c) (cl c) (cw c) v (ck c) (notes c) (stopped c).
Definition c_ck c v := mkConn (cs c) (cl c) (cw c) (cr c) v (notes c) (stopped c).
Definition c_notes c v := mkConn (cs c) (cl c) (cw c) (cr c) (ck c) v (stopped c).
Definition c_stopped c v := mkConn (cs c) (cl c) (cw c) (cr c) (ck c) (notes c) v.

(** what can be observed of the endpoint and its connections: net/client/server.go:88-189 *)
Inductive obs :=
| OOpen (i : nat)        (* the endpoint starts a connection *)
| OUp (i : nat)          (* ... learns that it is established *)
| ODialErr (i : nat)     (* ... learns that it could not be *)
| ODown (i : nat)        (* ... learns that it does not take requests any more *)
| ODead (i : nat)        (* ... learns that it is closed *)
| OAllDisc               (* the endpoint fails the queued requests with RcIOError: AllDisconnected, server.go:195-208 *)
| OStop (i : nat)        (* the endpoint stops connection i *)
| OFlush (i : nat)       (* connection i fails its requests in flight *)
| OEnd                   (* the endpoint's loop ends *)
| OPanic.                (* log.Panicf at server.go:167, :185 *)
Inductive ev :=
| SetConns (n : Z) | Stop                                             (* users: server.go:191-193, service.go:150-156 *)
| Tick | TakeErr | TakeAct | TakeExit | Visit (i : nat) | VisitEnd    (* server.go:125-135, :97-113 *)
| CStart (i : nat) | CDial (i : nat) (b : bool) | CSend (i : nat) | CSet (i : nat)
| W (i : nat) | WGet (i : nat) | WFail (i : nat) | WExit (i : nat)    (* its writer; WGet: a request or a ping *)
| RFail (i : nat) | R (i : nat) | K (i : nat).
(** bookkeeping: observations and the state after a step *)
Definition result := (list obs * st)%type.
(** bookkeeping: a step without observation *)
Definition ok (s : st) : result := ([], s).

(** server.go:90-96 *)
Fixpoint open (k : nat) (s : st) : result :=
  match k with
  | O => ([], s)
  | S k =>
      let i := S (curId s) in
      let s := mkSt (i :: conns s) i (upd (cn s) i new_conn) (need s) (dialing s + 1) (est s) (dying s) (ch s) (acts s) (xreq s) (exiting s) (sp s) in
      let '(o, s') := open k s in (OOpen i :: o, s')
  end.
(** server.go:137-140 *)
Definition after (s : st) : result :=
  if exiting s && (est s + dialing s =? 0) then ([OEnd], w_sp s SDone) else ok (w_sp s SIdle).
(** server.go:88-114, called from :134 *)
Definition fix_connections (s : st) : result :=
  let k := need s - (dialing s + est s) in
  if k <? 0 then ok (w_sp s (SFix k (conns s)))
  else let '(o, s) := open (Z.to_nat k) s in let '(o', s) := after s in (o ++ o', s).
(** server.go:152-189 *)
Definition mem (i : nat) (l : list nat) : bool := existsb (Nat.eqb i) l.
(** bookkeeping: removal from a list *)
Definition del (i : nat) (l : list nat) : list nat := remove Nat.eq_dec i l.
(** onConnError, net/client/server.go:152-189 *)
Definition on_conn_error (s : st) (m : nat * kind) : result :=
  let i := fst m in
  match snd m with
  | KDialOk => ([OUp i], w_est (w_dialing s (dialing s - 1)) (est s + 1))
  | KDialErr =>
      let s := w_dialing s (dialing s - 1) in
      if mem i (conns s) then
        let s := w_conns s (del i (conns s)) in
        (ODialErr i :: (if est s =? 0 then [OAllDisc] else []), s)
      else ([ODialErr i; OPanic], s)
  | KWrite =>
      let s := w_dying (w_est s (est s - 1)) (dying s + 1) in
      (ODown i :: (if est s =? 0 then [OAllDisc] else []), s)
  | KRead =>
      let s := w_dying s (dying s - 1) in
      if mem i (conns s) then ([ODead i], w_conns s (del i (conns s))) else ([ODead i; OPanic], s)
  end.

(** conn.ConnErr <- Error{...}, net/client/connection/connection.go:107, 120, 126, 251: possible while the channel has room *)
Definition send (s : st) (i : nat) (k : kind) (c : conn) : result :=
  if (length (ch s) <? cap)%nat then ok (w_ch (w_cn s i c) (ch s ++ [(i, k)])) else ok s.
Definition tell (s : st) (i : nat) (n : note) (c : conn) : result :=     (* loopNotify has room for two, connection.go:92 *)
  if (length (notes c) <? 2)%nat then ok (w_cn s i (c_notes c (notes c ++ [n]))) else ok s.
(** the next step of the write loop of connection i, net/client/connection/connection.go:230-305 *)
Definition step_w (s : st) (i : nat) : result :=
  let c := cn s i in
  match cw c with
  | WTop => ok (w_cn s i (c_cw c (if stopped c then WNote else WSel1)))
  | WSel1 => ok (w_cn s i (c_cw c WSel2))
  | WReq => ok (w_cn s i (c_cw c WTop))
  | WNote => tell s i NWrite (c_cw c WMsg)
  | WMsg => send s i KWrite (c_cw c WEnd)
  | WOff | WSel2 | WEnd => ok s
  end.
(** connection.go:154-183, 146-152 *)
Definition step_k (s : st) (i : nat) : result :=
  let c := cn s i in
  match ck c with
  | KRun =>
      match notes c with
      | [] => ok s
      | n :: ns =>
          let '(r, w) := match cs c with CsClosing r w => (r, w) | _ => (false, false) end in
          let '(r, w) := match n with NWrite => (r, true) | NRead => (true, w) end in
          ok (w_cn s i (c_ck (c_cs (c_notes c ns) (CsClosing r w)) (if r && w then KMsg else KRun)))
      end
  | KMsg => send s i KRead (c_ck c KFlush)
  | KFlush => ([OFlush i], w_cn s i (c_ck c KEnd))
  | KOff | KEnd => ok s
  end.
(** Loop of the server calls fixConnections after what it took, net/client/server.go:120-142 *)
Definition server_turn (s : st) (r : result) : result :=
  match sp s with
  | SIdle => let '(o, s) := r in let '(o', s) := after s in (o ++ o', s)
  | _ => ok s
  end.
(** one step of the endpoint (net/client/server.go:120-142, 191-193), of a dialling goroutine (net/client/connection/connection.go:103-131) or of a loop of a connection (:154-305) *)
Definition step (s : st) (e : ev) : result :=
  match e with
  | SetConns n => ok (w_acts s (acts s ++ [n]))
  | Stop => ok (w_xreq s true)
  | Tick => match sp s with SIdle => fix_connections s | _ => ok s end
  | TakeErr => match ch s with [] => ok s | m :: c => server_turn s (on_conn_error (w_ch s c) m) end
  | TakeAct => match acts s with [] => ok s | n :: a => server_turn s (ok (w_need (w_acts s a) n)) end
  | TakeExit => if xreq s then server_turn s (ok (w_exiting (w_need (w_xreq s false) 0) true)) else ok s
  | Visit i =>
      match sp s with
      | SFix k todo =>
          if mem i todo then
            let c := cn s i in
            match cs c with
            | CsDialing => ([OStop i], w_sp (w_cn s i (c_stopped c true)) (SStop i true k (del i todo)))
            | CsConnected => ([OStop i], w_sp (w_cn s i (c_stopped c true)) (SStop i false k (del i todo)))
            | _ => ok (w_sp s (SFix k (del i todo)))
            end
          else ok s
      | _ => ok s
      end
  | VisitEnd => match sp s with SFix _ [] => after s | _ => ok s end
  | CStart i => let c := cn s i in match cl c with L0 => if mem i (conns s) then ok (w_cn s i (c_cs (c_cl c LDial) CsDialing)) else ok s | _ => ok s end
  | CDial i b => let c := cn s i in match cl c with LDial => ok (w_cn s i (c_cl c (if b then LSendOk else LSendErr))) | _ => ok s end
  | CSend i =>
      let c := cn s i in
      match cl c with
      | LSendErr => send s i KDialErr (c_cl c LUnset)
      | LSendOk => send s i KDialOk (c_cl c LSet)
      | _ => ok s
      end
  | CSet i =>
      let c := cn s i in
      match cl c with
      | LSet => ok (w_cn s i (mkConn CsConnected LOk WTop RRun KRun (notes c) (stopped c)))
      | LUnset => ok (w_cn s i (c_cs (c_cl c LFailed) (CsClosing true true)))
      | _ => ok s
      end
  | W i => step_w s i
  | WGet i => let c := cn s i in match cw c with WSel1 | WSel2 => ok (w_cn s i (c_cw c WReq)) | _ => ok s end
  | WFail i => let c := cn s i in match cw c with WSel1 | WReq => ok (w_cn s i (c_cw c WNote)) | _ => ok s end
  | WExit i =>
      match sp s, cw (cn s i) with
      | SStop j d k todo, WSel2 =>
          if (i =? j)%nat then
            let s := w_cn s i (c_cw (cn s i) WNote) in
            let s := if d then w_dialing s (dialing s - 1) else w_est s (est s - 1) in
            if k + 1 =? 0 then after s else ok (w_sp s (SFix (k + 1) todo))
          else ok s
      | _, _ => ok s
      end
  | RFail i => let c := cn s i in match cr c with RRun => ok (w_cn s i (c_cr c RNote)) | _ => ok s end
  | R i => let c := cn s i in match cr c with RNote => tell s i NRead (c_cr c REnd) | _ => ok s end
  | K i => step_k s i
  end.
(** bookkeeping: a schedule, event by event *)
Fixpoint run (s : st) (es : list ev) : result :=
  match es with
  | [] => ([], s)
  | e :: es => let '(o, s) := step s e in let '(o', s') := run s es in (o ++ o', s')
  end.
(** Server.Loop up to its first select, server.go:120-124, for a configuration with n connections *)
Definition s_init (n : Z) : result :=
  open (Z.to_nat n) (mkSt [] 0 (fun _ => new_conn) n 0 0 0 [] [] false false SIdle).
(** bookkeeping: a schedule from the initial state *)
Definition start (n : Z) (es : list ev) : result :=
  let '(o, s) := s_init n in let '(o', s) := run s es in (o ++ o', s).
