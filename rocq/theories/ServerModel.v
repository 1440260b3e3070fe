(** Model of a server connection (net/server/connection.go) as a machine of four kinds of goroutines: the read
    loop, the write loop, the control loop, and any number of goroutines that complete requests.

    Simplifications. A request is a number, the order in which it was read; RequestModel.v shows that a request
    calls its Responder at most once, so completion is one event per request, followed by the run of Respond. The
    mutex is held between two steps only by a goroutine blocked in [conn.out <- r] (connection.go:91-92); every
    other critical section is one step. EndPoint.Send (connection.go:203) does not block and is part of the step
    that puts the request into inFly. The receiver of Server.connClosed is always ready (server.go:73-94, a
    separate goroutine; what happens after it has ended is not modelled). Frames are encoded by WireModel.v; a
    response handed to WriteResponse without error is [OWrite]. Memory is unbounded. *)
From Coq Require Import ZArith List Bool.
Import ListNotations.
Open Scope Z_scope.

(** ** Return codes *)
Definition RcFatal : Z := 2.      (* response.go:15 *)
Definition RcInternal : Z := 3.   (* response.go:16 *)
Definition RcKindMask : Z := 7.   (* response.go:17 *)
Definition RcCanceled : Z := 65283. (* 0xff03, response.go:26 *)
Definition kind (c : Z) : Z := Z.land c RcKindMask.
(** a Go map from code to code; absent keys read as 0; RCMap, net/server/config.go:10-21 *)
Definition rcmap := list (Z * Z).
(** a lookup in the map, net/server/connection.go:74-80 *)
Definition rc_get (m : rcmap) (c : Z) : Z := match find (fun e => fst e =? c) m with Some e => snd e | None => 0 end.
(** NewServer's validation, server.go:32-41: false is log.Panicf *)
Definition new_server_ok (m : option rcmap) : bool :=
  match m with None => true | Some m => forallb (fun e => (kind (fst e) =? RcInternal) && negb (kind (snd e) =? RcInternal)) m end.
(** the code that Respond sends, connection.go:75-83 *)
Definition wire_code (m : option rcmap) (c : Z) : Z :=
  if kind c =? RcInternal then
    let repl := match m with Some m => rc_get m c | None => 0 end in
    if negb (repl =? 0) then repl else Z.lor (Z.ldiff c RcKindMask) RcFatal
  else c.

(** ** State; bookkeeping: a request is named by its number *)
Definition rid := nat.
(** nt.Response; [res_req] is not in the code, it names the request answered (None: a ping); net/server/connection.go:82-101 *)
Record res := mkRes { res_id : Z; res_code : Z; res_body : list Z; res_req : option rid }.
Inductive note := NWrite | NRead | NEmpty.          (* notifyAction, connection.go:15-19 *)
(** readLoop, connection.go:159-205 *)
Inductive rpc :=
| RIdle                       (* in ReadRequest, :171 *)
| RPing (id : Z)              (* conn.out <- res, :180 *)
| RIns (r : rid)              (* conn.Lock, :199 *)
| RNote | RDone.              (* deferred notifyLoop(readClosed), :165 *)
(** writeLoop, connection.go:239-290 *)
Inductive wpc :=
| WSel                        (* the select, :260 *)
| WDef                        (* the default branch, at conn.Lock, :266 *)
| WFlush                      (* :278 *)
| WRecv                       (* :281 *)
| WWrite (x : res)            (* :286 *)
| WEmpty                      (* notifyLoop(inFlyEmpty), :274 *)
| WEnd                        (* deferred, err == nil: Flush, CloseWrite, :246-250 *)
| WNote | WDone.              (* notifyLoop(writeClosed), :251 *)
(** controlLoop, connection.go:125-153 *)
Inductive kpc :=
| KRecv                       (* :128 *)
| KRead                       (* case readClosed, at conn.Lock, :131 *)
| KWrite                      (* case writeClosed: state set, cancelInFly at conn.Lock, :139-141, :104 *)
| KCancel (l : list rid)      (* cancelInFly's loop, :113-115, and what follows it *)
| KResp (x : res) (l : list rid)   (* inside req.Cancel(): Respond at conn.Lock, :86 *)
| KBlock (l : list rid)       (* inside req.Cancel(): Respond blocked in conn.out <-, :92 *)
| KDone.
(** Connection, net/server/connection.go:30-45, and where its goroutines are *)
Record st := mkSt {
  rcm : option rcmap;
  inFly : list (Z * rid);            (* map[uint32]*Request *)
  nreq : rid;                        (* requests read so far *)
  idOf : rid -> Z;
  comp : rid -> bool;                (* completed *)
  out : list res; closed : bool;     (* chan Response, capacity 128 *)
  buf : list res;
  notes : list note;                 (* loopNotify, capacity 2 *)
  csRead : bool; csWrite : bool;     (* conn.state *)
  eof : bool;                        (* reads from the network will fail *)
  rp : rpc; wp : wpc; kp : kpc;
  waits : list res;                  (* goroutines in Respond before conn.Lock *)
  blk : option (res * bool) }.       (* the holder of the lock blocked in conn.out <-; true: it is the control loop *)
(** net/server/connection.go:47-62 *)
Definition s_init (m : option rcmap) : st :=
  mkSt m [] 0%nat (fun _ => 0) (fun _ => false) [] false [] [] false false false RIdle WSel KRecv [] None.

(** record updates; bookkeeping: the assignments of the steps below *)
Definition w_inFly (s : st) v := mkSt (rcm s) v (nreq s) (idOf s) (comp s) (out s) (closed s) (buf s) (notes s) (csRead s) (csWrite s) (eof s) (rp s) (wp s) (kp s) (waits s) (blk s).
Definition w_comp (s : st) v := mkSt (rcm s) (inFly s) (nreq s) (idOf s) v (out s) (closed s) (buf s) (notes s) (csRead s) (csWrite s) (eof s) (rp s) (wp s) (kp s) (waits s) (blk s).
Definition w_new (s : st) n v := mkSt (rcm s) (inFly s) n v (comp s) (out s) (closed s) (buf s) (notes s) (csRead s) (csWrite s) (eof s) (rp s) (wp s) (kp s) (waits s) (blk s).
Definition w_out (s : st) v := mkSt (rcm s) (inFly s) (nreq s) (idOf s) (comp s) v (closed s) (buf s) (notes s) (csRead s) (csWrite s) (eof s) (rp s) (wp s) (kp s) (waits s) (blk s).
Definition w_closed (s : st) v := mkSt (rcm s) (inFly s) (nreq s) (idOf s) (comp s) (out s) v (buf s) (notes s) (csRead s) (csWrite s) (eof s) (rp s) (wp s) (kp s) (waits s) (blk s).
Definition w_buf (s : st) v := mkSt (rcm s) (inFly s) (nreq s) (idOf s) (comp s) (out s) (closed s) v (notes s) (csRead s) (csWrite s) (eof s) (rp s) (wp s) (kp s) (waits s) (blk s).
Definition w_notes (s : st) v := mkSt (rcm s) (inFly s) (nreq s) (idOf s) (comp s) (out s) (closed s) (buf s) v (csRead s) (csWrite s) (eof s) (rp s) (wp s) (kp s) (waits s) (blk s).
Definition w_csRead (s : st) v := mkSt (rcm s) (inFly s) (nreq s) (idOf s) (comp s) (out s) (closed s) (buf s) (notes s) v (csWrite s) (eof s) (rp s) (wp s) (kp s) (waits s) (blk s).
Definition w_csWrite (s : st) v := mkSt (rcm s) (inFly s) (nreq s) (idOf s) (comp s) (out s) (closed s) (buf s) (notes s) (csRead s) v (eof s) (rp s) (wp s) (kp s) (waits s) (blk s).
Definition w_eof (s : st) v := mkSt (rcm s) (inFly s) (nreq s) (idOf s) (comp s) (out s) (closed s) (buf s) (notes s) (csRead s) (csWrite s) v (rp s) (wp s) (kp s) (waits s) (blk s).
Definition w_rp (s : st) v := mkSt (rcm s) (inFly s) (nreq s) (idOf s) (comp s) (out s) (closed s) (buf s) (notes s) (csRead s) (csWrite s) (eof s) v (wp s) (kp s) (waits s) (blk s).
Definition w_wp (s : st) v := mkSt (rcm s) (inFly s) (nreq s) (idOf s) (comp s) (out s) (closed s) (buf s) (notes s) (csRead s) (csWrite s) (eof s) (rp s) v (kp s) (waits s) (blk s).
Definition w_kp (s : st) v := mkSt (rcm s) (inFly s) (nreq s) (idOf s) (comp s) (out s) (closed s) (buf s) (notes s) (csRead s) (csWrite s) (eof s) (rp s) (wp s) v (waits s) (blk s).
Definition w_waits (s : st) v := mkSt (rcm s) (inFly s) (nreq s) (idOf s) (comp s) (out s) (closed s) (buf s) (notes s) (csRead s) (csWrite s) (eof s) (rp s) (wp s) (kp s) v (blk s).
Definition w_blk (s : st) v := mkSt (rcm s) (inFly s) (nreq s) (idOf s) (comp s) (out s) (closed s) (buf s) (notes s) (csRead s) (csWrite s) (eof s) (rp s) (wp s) (kp s) (waits s) v.

(** bookkeeping: a function changed at one argument *)
Definition updn {A} (f : rid -> A) (k : rid) (v : A) : rid -> A := fun i => if Nat.eqb i k then v else f i.
(** delete(conn.inFly, id), net/server/connection.go:74-101 *)
Definition idel (m : list (Z * rid)) (k : Z) : list (Z * rid) := filter (fun e => negb (fst e =? k)) m.
(** conn.inFly[id], net/server/connection.go:74-101 *)
Definition ihas (m : list (Z * rid)) (k : Z) : bool := existsb (fun e => fst e =? k) m.
(** conn.inFly[id] = request, net/server/connection.go:198-200 *)
Definition iset (m : list (Z * rid)) (k : Z) (r : rid) : list (Z * rid) := idel m k ++ [(k, r)].
(** cap(conn.out), connection.go:53; cap(conn.loopNotify), :59 *)
Definition OutCap : nat := 128%nat.
(** the channel out has no room, net/server/connection.go:53 *)
Definition out_full (s : st) : bool := Nat.leb OutCap (length (out s)).
(** the channel loopNotify has no room, net/server/connection.go:59 *)
Definition notes_full (s : st) : bool := Nat.leb 2 (length (notes s)).

(** ** Observations and events; bookkeeping: a panic *)
Inductive crash := CloseOfClosed | SendOnClosed.
Inductive obs :=
| OReq (r : rid) (id : Z)       (* a request was read *)
| OPing (id : Z)                (* a ping was read *)
| OSend (r : rid)               (* a request was given to the endpoint *)
| OComp (r : rid) (code : Z) (body : list Z)  (* a request completed, with its own code *)
| OAnswer (x : res)             (* Respond took the request out of inFly *)
| ODrop (x : res)               (* Respond found no request with this id *)
| OPong (x : res)               (* the answer to a ping was queued *)
| OWrite (x : res)              (* a response was written *)
| OWriteErr
| OClosed                       (* the control loop has ended: Server.connClosed <- conn.Id, :122 *)
| OPanic (c : crash).
Inductive ev :=
(* the outside: network and handlers *)
| NetReq (id : Z) | NetPing (id : Z) | NetClose | Complete (r : rid) (code : Z) (body : list Z)
| WriteFail                     (* WriteResponse or Flush fails, :278, :286, :247 *)
(* the goroutines of the connection *)
| Reader | Writer | Control
| Responder (n : nat)           (* the n-th waiting goroutine gets the lock *)
| Unblock.                      (* the blocked goroutine's send succeeds *)

(** bookkeeping: observations and the state after a step *)
Definition result := (list obs * option st)%type.
(** bookkeeping: a step without observation *)
Definition ok (s : st) : result := ([], Some s).
(** conn.out <- x by a goroutine that does not have to wait; net/server/connection.go:74-101, 176-180 *)
Definition put (s : st) (x : res) : st := w_out s (out s ++ [x]).
(** Respond from conn.Lock on, connection.go:86-100 (the lock is free); [k]: called by the control loop *)
Definition respond (s : st) (x : res) (k : bool) : result :=
  if ihas (inFly s) (res_id x) then
    let s := w_inFly s (idel (inFly s) (res_id x)) in
    match buf s with
    | [] =>
        if closed s then ([OAnswer x; OPanic SendOnClosed], None)
        else if out_full s then ([OAnswer x], Some (w_blk s (Some (x, k))))
        else ([OAnswer x], Some (put s x))
    | _ => ([OAnswer x], Some (w_buf s (buf s ++ [x])))
    end
  else ([ODrop x], Some s).
(** the end of the body of controlLoop, :149-151, and closed(), :119-123 *)
Definition k_check (s : st) : result :=
  if csRead s && csWrite s then ([OClosed], Some (w_kp (w_inFly (w_buf s []) []) KDone)) else ok (w_kp s KRecv).
(** close(conn.out); net/server/connection.go:119-153 *)
Definition k_close (s : st) : result :=
  if closed s then ([OPanic CloseOfClosed], None) else k_check (w_closed s true).
(** conn.loopNotify <- n; net/server/connection.go:155-157 *)
Definition notify (s : st) (n : note) : st := w_notes s (notes s ++ [n]).

(** the next step of readLoop, net/server/connection.go:159-205 *)
Definition step_reader (s : st) : result :=
  match rp s with
  | RIdle => if eof s then ok (w_rp s RNote) else ok s
  | RPing id =>
      let x := mkRes id 0 [] None in
      if closed s then ([OPanic SendOnClosed], None)
      else if out_full s then ok s else ([OPong x], Some (w_rp (put s x) RIdle))
  | RIns r =>
      match blk s with Some _ => ok s | None => ([OSend r], Some (w_rp (w_inFly s (iset (inFly s) (idOf s r) r)) RIdle)) end
  | RNote => if notes_full s then ok s else ok (w_rp (notify s NRead) RDone)
  | RDone => ok s
  end.
(** cleanBuffer, connection.go:207-237: moves what fits *)
Definition clean_buffer (s : st) : st :=
  let n := Nat.min (length (buf s)) (OutCap - length (out s)) in
  w_buf (w_out s (out s ++ firstn n (buf s))) (skipn n (buf s)).
(** the next step of writeLoop, net/server/connection.go:239-290 *)
Definition step_writer (s : st) : result :=
  match wp s with
  | WSel =>
      match out s with
      | x :: l => ok (w_wp (w_out s l) (WWrite x))
      | [] => if closed s then ok (w_wp s WEnd) else ok (w_wp s WDef)
      end
  | WDef =>
      match blk s with
      | Some _ => ok s
      | None =>
          match buf s with
          | _ :: _ => if closed s then ([OPanic SendOnClosed], None) else ok (w_wp (clean_buffer s) WSel)
          | [] =>
              if csRead s && match inFly s with [] => true | _ => false end && match out s with [] => true | _ => false end
              then ok (w_wp s WEmpty) else ok (w_wp s WFlush)
          end
      end
  | WFlush => ok (w_wp s WRecv)
  | WRecv =>
      match out s with
      | x :: l => ok (w_wp (w_out s l) (WWrite x))
      | [] => if closed s then ok (w_wp s WEnd) else ok s
      end
  | WWrite x => ([OWrite x], Some (w_wp s WSel))
  | WEmpty => if notes_full s then ok s else ok (w_wp (notify s NEmpty) WEnd)
  | WEnd => ok (w_wp s WNote)
  | WNote => if notes_full s then ok s else ok (w_wp (notify s NWrite) WDone)
  | WDone => ok s
  end.
(** the next step of controlLoop, net/server/connection.go:125-153 *)
Definition step_control (s : st) : result :=
  match kp s with
  | KRecv =>
      match notes s with
      | [] => ok s
      | NRead :: l => ok (w_kp (w_notes s l) KRead)
      | NWrite :: l => ok (w_kp (w_csWrite (w_notes s l) true) KWrite)
      | NEmpty :: l => k_close (w_notes s l)
      end
  | KRead =>
      match blk s with
      | Some _ => ok s
      | None =>
          let s := w_csRead s true in
          match inFly s, buf s, out s with [], [], [] => k_close s | _, _, _ => k_check s end
      end
  | KWrite =>
      match blk s with Some _ => ok s | None => ok (w_kp s (KCancel (map snd (inFly s)))) end
  | KCancel [] => k_check (if csRead s then s else w_eof s true)
  | KCancel (r :: l) =>
      if comp s r then ok (w_kp s (KCancel l))
      else ([OComp r RcCanceled []], Some (w_kp (w_comp s (updn (comp s) r true)) (KResp (mkRes (idOf s r) (wire_code (rcm s) RcCanceled) [] (Some r)) l)))
  | KResp x l =>
      match blk s with
      | Some _ => ok s
      | None =>
          match respond s x true with
          | (o, Some s') => (o, Some (w_kp s' (match blk s' with Some _ => KBlock l | None => KCancel l end)))
          | r => r
          end
      end
  | KBlock _ | KDone => ok s
  end.
(** bookkeeping: an element and the rest *)
Fixpoint take_nth {A} (n : nat) (l : list A) : option (A * list A) :=
  match l, n with
  | [], _ => None
  | x :: l, O => Some (x, l)
  | x :: l, S n => match take_nth n l with Some (y, l') => Some (y, x :: l') | None => None end
  end.
(** one step: something arrives, a handler completes, Respond goes on (net/server/connection.go:74-101), or a loop of the connection does (:125-290) *)
Definition step (s : st) (e : ev) : result :=
  match e with
  | NetReq id =>
      match rp s with
      | RIdle => ([OReq (nreq s) id], Some (w_rp (w_new s (S (nreq s)) (updn (idOf s) (nreq s) id)) (RIns (nreq s))))
      | _ => ok s
      end
  | NetPing id => match rp s with RIdle => ([OPing id], Some (w_rp s (RPing id))) | _ => ok s end
  | NetClose => ok (w_eof s true)
  | Complete r code body =>
      (* a handler can complete what the read loop has sent to it *)
      if Nat.ltb r (nreq s) && negb (comp s r) && negb match rp s with RIns r' => Nat.eqb r r' | _ => false end then
        ([OComp r code body], Some (w_waits (w_comp s (updn (comp s) r true)) (waits s ++ [mkRes (idOf s r) (wire_code (rcm s) code) body (Some r)])))
      else ok s
  | WriteFail => match wp s with WWrite _ | WFlush | WEnd => ([OWriteErr], Some (w_wp s WNote)) | _ => ok s end
  | Reader => step_reader s
  | Writer => step_writer s
  | Control => step_control s
  | Responder n =>
      match blk s, take_nth n (waits s) with
      | None, Some (x, l) => respond (w_waits s l) x false
      | _, _ => ok s
      end
  | Unblock =>
      match blk s with
      | Some (x, k) =>
          if closed s then ([OPanic SendOnClosed], None)
          else if out_full s then ok s
          else let s := put (w_blk s None) x in
               ok (if k then match kp s with KBlock l => w_kp s (KCancel l) | _ => s end else s)
      | None => ok s
      end
  end.
(** bookkeeping: a schedule, event by event *)
Fixpoint run (s : st) (es : list ev) : list obs * option st :=
  match es with
  | [] => ([], Some s)
  | e :: es =>
      match step s e with
      | (o, None) => (o, None)
      | (o, Some s) => let '(o', s') := run s es in (o ++ o', s')
      end
  end.
