(** Model of a client endpoint with its connections and the requests that go through it: ClientModel.v
    (net/client/server.go and the loops of net/client/connection/connection.go) and, for each connection, HolderModel.v
    (net/client/connection/request_holder.go) in one machine. The two share the loops of a connection: where HolderModel.v
    lets a connection take requests, receive answers, be stopped and end at any time, here it does so exactly when its loops
    in ClientModel.v are at the line concerned; and where ClientModel.v lets the write loop get something at any time, here
    it gets the oldest request that waits, or the ping ticker.

    Simplifications: those of the two models, except the ones just named. The channel of requests with the buffer in front
    of it (service.go:92-105, BufferModel.v) is one queue, which gives out the oldest request; a writer may find it
    momentarily empty, as the buffer's goroutine moves the requests on. AllDisconnected fails the oldest requests of the
    queue, as many as the schedule says: those that were in the channel when it looked. A request is sent once and not
    re-armed. A panic in a connection ends the program. *)
From Coq Require Import ZArith List Bool Arith.
Import ListNotations.
From Verif Require ClientModel HolderModel.

(** a request is named by its number, as in HolderModel.v *)
Definition rid := HolderModel.rid.
(** Server, net/client/server.go:34-54, with the requests of its users *)
Record st := mkF {
  ep : ClientModel.st;                  (* the endpoint and the loops of its connections *)
  tab : nat -> HolderModel.conn;        (* each connection's inFly, connection.go:73 *)
  queue : list rid;                     (* Buffer and its channel, service.go:66-72 *)
  hand : nat -> option rid;             (* the write loop's request, connection.go:258 *)
  sent : rid -> bool;                   (* Send was called, service.go:120-148 *)
  fin : rid -> bool }.                  (* RsPerformed, request.go:51-65 *)
(** bookkeeping: the state with one component replaced; the assignments of the steps below *)
Definition w_ep s v := mkF v (tab s) (queue s) (hand s) (sent s) (fin s).
Definition w_tab s i v := mkF (ep s) (fun j => if (j =? i)%nat then v else tab s j) (queue s) (hand s) (sent s) (fin s).
Definition w_tabs s v := mkF (ep s) v (queue s) (hand s) (sent s) (fin s).
Definition w_queue s v := mkF (ep s) (tab s) v (hand s) (sent s) (fin s).
Definition w_hand s i v := mkF (ep s) (tab s) (queue s) (fun j => if (j =? i)%nat then v else hand s j) (sent s) (fin s).
Definition w_sent s r := mkF (ep s) (tab s) (queue s) (hand s) (fun q => (q =? r)%nat || sent s q) (fin s).
Definition w_fin s (l : list rid) := mkF (ep s) (tab s) (queue s) (hand s) (sent s) (fun q => existsb (Nat.eqb q) l || fin s q).

(** bookkeeping: who completes a request: a connection, with the peer's answer or because it ended; a timeout or the user; the endpoint, when it has no connection left (server.go:195-208) *)
Inductive who := ByConn (i : nat) | ByUser | ByQueue.
(** bookkeeping: what can be observed *)
Inductive obs :=
| FSent (r : rid)                                                 (* a user hands over a request *)
| FWire (i : nat) (id : Z) (r : rid)                              (* it is written on connection i under a wire id *)
| FGot (i : nat) (id code : Z) (body : list Z)                    (* a response arrives on connection i *)
| FDone (w : who) (r : rid) (o : HolderModel.outcome)             (* the request completes *)
| FClosed (i : nat)                                               (* connection i begins to fail what it has in flight *)
| FEp (o : ClientModel.obs).                                      (* the endpoint *)
(** bookkeeping: observations and the state after a step; None: a panic *)
Definition result := (list obs * option st)%type.
(** bookkeeping: a step that is not possible in the state does nothing *)
Definition skip (s : st) : result := ([], Some s).
(** bookkeeping: one thing after the other *)
Definition bind (r : result) (f : st -> result) : result :=
  match r with (o, Some s) => let '(o', s') := f s in (o ++ o', s') | (o, None) => (o, None) end.
(** bookkeeping: an observation at connection i *)
Definition seen (i : nat) (o : HolderModel.obs) : obs :=
  match o with
  | HolderModel.OWire id r => FWire i id r
  | HolderModel.OGot id code body => FGot i id code body
  | HolderModel.ODone r x => FDone (ByConn i) r x
  | HolderModel.OClosed => FClosed i
  end.
(** bookkeeping: the requests that complete in a step of a connection *)
Definition ended (o : list HolderModel.obs) : list rid := flat_map (fun x => match x with HolderModel.ODone r _ => [r] | _ => [] end) o.
(** a step on the table of connection i, net/client/connection/connection.go:185-226, 286-299 *)
Definition on (s : st) (i : nat) (e : HolderModel.ev) : result :=
  match HolderModel.step (tab s i) e with
  | (o, Some c) => (map (seen i) o, Some (w_tab (w_fin s (ended o)) i c))
  | (o, None) => (map (seen i) o, None)
  end.
(** a step of the endpoint or of a loop, net/client/server.go:120-142, net/client/connection/connection.go:103-305 *)
Definition turn (s : st) (e : ClientModel.ev) : result :=
  let '(o, p) := ClientModel.step (ep s) e in (map FEp o, Some (w_ep s p)).

(** bookkeeping: the steps of the program and of the world around it *)
Inductive ev :=
| Send (r : rid) | Local (r : rid) (code : Z)                    (* service.go:120-148; timeout or cancel, request.go:173-179 *)
| Take (i : nat) | Ping (i : nat)                                 (* connection.go:268, 276; :274 *)
| Fetch (i : nat) | Write (i : nat) (good : bool)                 (* connection.go:286-288; :283-303 *)
| Resp (i : nat) (id code : Z) (body : list Z) | Deliver (i : nat)  (* connection.go:211-219; :220 *)
| Flush (i : nat)                                                 (* connection.go:193-197 *)
| Report (k : nat)                                                (* server.go:129-130 *)
| Ep (e : ClientModel.ev).                                        (* every other step of ClientModel.v *)

(** RespondFail by a timer or by the user: unchains the bookmark wherever the request is, request.go:129-153, 173-179 *)
Definition local (c : HolderModel.conn) (r : rid) (code : Z) : HolderModel.conn :=
  match snd (HolderModel.step c (HolderModel.Local r code)) with Some c => c | None => c end.
(** the first k requests of the queue which are not complete yet, net/client/server.go:195-208 *)
Definition failing (s : st) (k : nat) : list rid := filter (fun r => negb (fin s r)) (firstn k (queue s)).
(** req.IOError() for the first k requests of the queue, net/client/server.go:198-207 *)
Definition all_disconnected (s : st) (k : nat) : result :=
  (map (fun r => FDone ByQueue r HolderModel.IOError) (failing s k), Some (w_queue (w_fin s (failing s k)) (skipn k (queue s)))).
(** bookkeeping *)
Definition says_all (o : list obs) : bool := existsb (fun x => match x with FEp ClientModel.OAllDisc => true | _ => false end) o.
(** SetInFly succeeds, request.go:85-98 *)
Definition fresh (c : HolderModel.conn) (r : rid) : bool := match HolderModel.rs c r with HolderModel.RNew => true | _ => false end.

(** the steps which ClientModel.v and HolderModel.v share, and those of ClientModel.v alone; net/client/connection/connection.go:146-305 *)
Definition shared (s : st) (e : ClientModel.ev) : result :=
  match e with
  | ClientModel.TakeErr | ClientModel.WGet _ => skip s
  | ClientModel.W i =>
      let c := ClientModel.cn (ep s) i in
      match ClientModel.cw c with
      | ClientModel.WTop => if ClientModel.stopped c then bind (on s i HolderModel.Stop) (fun s => turn s e) else turn s e    (* :262-265 *)
      | ClientModel.WReq => skip s
      | _ => turn s e
      end
  | ClientModel.WFail i =>
      match ClientModel.cw (ClientModel.cn (ep s) i) with ClientModel.WReq => skip s | _ => turn s e end
  | ClientModel.WExit i =>                                                                        (* :277-279 *)
      match ClientModel.sp (ep s), ClientModel.cw (ClientModel.cn (ep s) i) with
      | ClientModel.SStop j _ _ _, ClientModel.WSel2 => if (i =? j)%nat then bind (on s i HolderModel.Stop) (fun s => turn s e) else skip s
      | _, _ => skip s
      end
  | ClientModel.RFail i =>                        (* the read loop ends at its top, :211-213 *)
      match HolderModel.reader (tab s i) with None => turn s e | Some _ => skip s end
  | ClientModel.K i =>
      match ClientModel.ck (ClientModel.cn (ep s) i) with
      | ClientModel.KFlush => bind (turn s e) (fun s => on s i HolderModel.Close)       (* :151, :186-187 *)
      | _ => turn s e
      end
  | _ => turn s e
  end.
(** one step; net/client/server.go:120-208, net/client/connection/connection.go:103-305, service.go:120-148 *)
Definition step (s : st) (e : ev) : result :=
  match e with
  | Send r => if sent s r || fin s r then skip s else ([FSent r], Some (w_sent (w_queue s (queue s ++ [r])) r))
  | Local r code =>
      if fin s r then skip s
      else ([FDone ByUser r (HolderModel.Elsewhere code)], Some (w_fin (w_tabs s (fun i => local (tab s i) r code)) [r]))
  | Take i =>
      match ClientModel.cw (ClientModel.cn (ep s) i), queue s with
      | ClientModel.WSel1, r :: q | ClientModel.WSel2, r :: q => turn (w_hand (w_queue s q) i (Some r)) (ClientModel.WGet i)
      | _, _ => skip s
      end
  | Ping i => match ClientModel.cw (ClientModel.cn (ep s) i) with ClientModel.WSel2 => turn s (ClientModel.WGet i) | _ => skip s end
  | Fetch i => match hand s i with Some _ => on s i HolderModel.Prefetch | None => skip s end
  | Write i good =>
      match ClientModel.cw (ClientModel.cn (ep s) i) with
      | ClientModel.WReq =>
          match hand s i with
          | None => turn s (if good then ClientModel.W i else ClientModel.WFail i)          (* a ping, :283-284 *)
          | Some r =>
              match HolderModel.pre (tab s i) with
              | None => skip s
              | Some _ =>
                  let e := if good || negb (fresh (tab s i) r) then ClientModel.W i else ClientModel.WFail i in
                  bind (on s i (HolderModel.Send r)) (fun s => turn (w_hand s i None) e)
              end
          end
      | _ => skip s
      end
  | Resp i id code body =>
      match ClientModel.cr (ClientModel.cn (ep s) i) with ClientModel.RRun => on s i (HolderModel.Resp id code body) | _ => skip s end
  | Deliver i => on s i HolderModel.Deliver
  | Flush i => on s i HolderModel.Flush
  | Report k => bind (turn s ClientModel.TakeErr) (fun s' => if says_all (fst (turn s ClientModel.TakeErr)) then all_disconnected s' k else skip s')
  | Ep e => shared s e
  end.
(** bookkeeping: a schedule, event by event, up to the end or a panic *)
Fixpoint run (s : st) (es : list ev) : result :=
  match es with
  | [] => ([], Some s)
  | e :: es => bind (step s e) (fun s => run s es)
  end.
(** the endpoint with n connections before its first select, server.go:120-124; every connection's table starts alike, connection.go:87-98 *)
Definition f_init (n : Z) : list obs * st :=
  let '(o, p) := ClientModel.s_init n in (map FEp o, mkF p (fun _ => HolderModel.c_init) [] (fun _ => None) (fun _ => false) (fun _ => false)).
(** bookkeeping: a schedule from the initial state *)
Definition start (n : Z) (es : list ev) : result := let '(o, s) := f_init n in bind (o, Some s) (fun s => run s es).
