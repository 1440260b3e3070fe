(** Model of the client connection's table of requests in flight (net/client/connection/request_holder.go)
    and of the parts of net/client/connection/connection.go that use it: the write loop (getNext, SetInFly,
    WriteRequest), the read loop (remove, RespondBytes) and flushInFly.

    Simplifications: a request is an identifier; its life cycle is reduced to "not taken by this connection",
    "in flight with the bookmark of a slot" and "completed", every completion being one atomic step which
    unchains the bookmark (this is what RequestModel.v establishes for SetInFly / RespondBytes / RespondFail);
    a completed request is not re-armed and sent again. getNext and remove are one step each: they run in one
    goroutine each, and share only the map (under the mutex), the slot (written before its id is on the wire)
    and the two counters. Encoding of frames is the subject of WireModel.v. Growth of memory is not modelled;
    [Crash] is a panic of the client program. *)
From Coq Require Import ZArith List Bool.
Import ListNotations.
Open Scope Z_scope.

(** arithmetic of uint32, net/client/connection/request_holder.go:28-38 *)
Definition u32 (x : Z) : Z := x mod 2 ^ 32.
(** arithmetic of uint64, net/client/connection/request_holder.go:28-38 *)
Definition u64 (x : Z) : Z := x mod 2 ^ 64.
(** bookkeeping: a request is named by its number *)
Definition rid := nat.
(** Request, request_holder.go:11-14: [own] is Bookmark.Request *)
Record slot := mkSlot { fake : Z; own : option rid }.
(** RequestRow, request_holder.go:22-25 *)
Record row := mkRow { freed : Z; slots : Z -> slot }.
(** &RequestRow{}, net/client/connection/request_holder.go:22-25 *)
Definition empty_row : row := mkRow 0 (fun _ => mkSlot 0 None).
(** RequestHolder, request_holder.go:28-38. Rows are objects: [rows] is the heap, [nrow] the number of rows
    made so far, [cur] / [last] / the map hold row addresses. *)
Record holder := mkHolder {
  got : Z; put : Z; curId : Z;
  reqs : list (Z * Z); cur : Z; big : Z; last : Z; lastBig : Z;
  rows : Z -> row; nrow : Z }.
(** bookkeeping: a function changed at one argument *)
Definition upd {A} (f : Z -> A) (k : Z) (v : A) : Z -> A := fun i => if i =? k then v else f i.
(** bookkeeping: the state with one component replaced; the assignments of the steps below *)
Definition set_slot (h : holder) (r i : Z) (s : slot) : holder :=
  let w := rows h r in
  mkHolder (got h) (put h) (curId h) (reqs h) (cur h) (big h) (last h) (lastBig h)
    (upd (rows h) r (mkRow (freed w) (upd (slots w) i s))) (nrow h).

(** Go's map: insertion, lookup, delete. Iteration order is unspecified; here it is list order. type reqMap, net/client/connection/request_holder.go:27 *)
Fixpoint mget (m : list (Z * Z)) (k : Z) : option Z :=
  match m with [] => None | (k', v) :: m => if k' =? k then Some v else mget m k end.
(** delete(h.reqs, k), net/client/connection/request_holder.go:71-98 *)
Definition mdel (m : list (Z * Z)) (k : Z) : list (Z * Z) := filter (fun e => negb (fst e =? k)) m.
(** h.reqs[k] = v, net/client/connection/request_holder.go:47-69 *)
Definition mset (m : list (Z * Z)) (k v : Z) : list (Z * Z) := (k, v) :: mdel m k.

(** init, request_holder.go:40-45 *)
Definition h_init : holder := mkHolder 0 0 0 [(0, 0)] 0 0 0 0 (fun _ => empty_row) 1.

(** PingRequestId, request.go:19-21 *)
Definition PingId : Z := 2 ^ 32 - 1.
(** the loop of getNext, request_holder.go:49-68; the result is the slot's row address and index. The fuel
    bounds the number of skipped ids; None: still looping. *)
Fixpoint next_loop (fuel : nat) (h : holder) : option (holder * (Z * Z)) :=
  match fuel with
  | O => None
  | S fuel =>
      let id := u32 (curId h + 1) in
      let b := Z.shiftr id 8 in
      let h :=
        if negb (big h =? b) then
          mkHolder (got h) (put h) id (mset (reqs h) b (nrow h)) (nrow h) b (last h) (lastBig h)
            (upd (rows h) (nrow h) empty_row) (nrow h + 1)
        else mkHolder (got h) (put h) id (reqs h) (cur h) (big h) (last h) (lastBig h) (rows h) (nrow h) in
      if negb (id =? 0) && negb (id =? PingId) then
        let i := Z.land id 255 in
        let s := slots (rows h (cur h)) i in
        if negb (fake s =? 0) then next_loop fuel h
        else Some (set_slot h (cur h) i (mkSlot id (own s)), (cur h, i))
      else next_loop fuel h
  end.
(** getNext, net/client/connection/request_holder.go:47-69 *)
Definition getNext (h : holder) : option (holder * (Z * Z)) :=
  next_loop 600 (mkHolder (u64 (got h + 1)) (put h) (curId h) (reqs h) (cur h) (big h) (last h) (lastBig h) (rows h) (nrow h)).

(** remove, request_holder.go:71-98; None: log.Panicf *)
Definition remove (h : holder) (fakeId : Z) : option (holder * option rid) :=
  let b := Z.shiftr fakeId 8 in
  let found := if negb (lastBig h =? b) then mget (reqs h) b else Some (last h) in
  match found with
  | None => None
  | Some l =>
      let w := rows h l in
      let fr := u32 (freed w + 1) in
      let border := (b =? 0) || (b =? Z.shiftr PingId 8) in
      let m := if (fr =? 256) || ((fr =? 255) && border) then mdel (reqs h) b else reqs h in
      let i := Z.land fakeId 255 in
      let s := slots w i in
      Some (mkHolder (got h) (u64 (put h + 1)) (curId h) m (cur h) (big h) l b
              (upd (rows h) l (mkRow fr (upd (slots w) i (mkSlot 0 (own s))))) (nrow h),
            own s)
  end.

(** the slots of a row in index order; net/client/connection/request_holder.go:100-116 *)
Definition idxs : list Z := map Z.of_nat (seq 0 256).
(** the requests of a row that getAll takes, net/client/connection/request_holder.go:100-116 *)
Definition row_live (w : row) : list Z :=
  filter (fun j => negb (fake (slots w j) =? 0) && match own (slots w j) with Some _ => true | None => false end) idxs.
(** getAll, request_holder.go:100-116. make panics for lengths that no allocation can have; storing past the
    end of the slice panics. *)
Definition getAll (h : holder) : option (list (Z * Z)) :=
  let n := u64 (got h - put h) in
  let l := flat_map (fun e => map (fun j => (snd e, j)) (row_live (rows h (snd e)))) (reqs h) in
  if 2 ^ 45 <=? n then None
  else if n <? Z.of_nat (length l) then None
  else Some l.
(** count, request_holder.go:118-122 *)
Definition count (h : holder) : Z := u64 (got h - put h).

(** ** The connection *)
(** what a request ends with: the peer's answer, a failure by the connection, or a completion from elsewhere
    (timeout, cancel); response.go:12-29, request.go:51-65, 129-179 *)
Inductive outcome := Answer (code : Z) (body : list Z) | IOError | Shutdown | Elsewhere (code : Z).
(** the state of a request as the connection sees it, request.go:85-98 *)
Inductive rst := RNew | RFly (row idx : Z) | RDone (o : outcome).
Record conn := mkConn {
  hold : holder;
  pre : option (Z * Z);           (* the write loop's req, connection.go:254,286-288 *)
  reader : option (option rid * Z * list Z);   (* the read loop between remove and RespondBytes, connection.go:219-221 *)
  rs : rid -> rst;
  shut : bool;                    (* conn.shutdown *)
  open : bool;                    (* the loops are running *)
  flush : list (Z * Z) }.         (* flushInFly: slots still to be failed *)
(** bookkeeping: the state with one component replaced; the assignments of the steps below *)
Definition c_init : conn := mkConn h_init None None (fun _ => RNew) false true [].

(** observable: a frame (wire id, request) given to the writer; a response frame received; a completion; bookkeeping: what can be observed from outside *)
Inductive obs := OWire (id : Z) (r : rid) | OGot (id code : Z) (body : list Z) | ODone (r : rid) (o : outcome) | OClosed.
Inductive ev :=
| Prefetch            (* req = conn.inFly.getNext(conn), connection.go:286-288 *)
| Send (r : rid)      (* SetInFly and WriteRequest, connection.go:289-299 *)
| Resp (id code : Z) (body : list Z)   (* ReadResponse of anything but a ping and remove, connection.go:211-219 *)
| Deliver             (* ireq.RespondBytes, connection.go:220 *)
| Local (r : rid) (code : Z)           (* timeout or cancel: RespondFail by somebody else *)
| Stop                (* conn.shutdown = true, connection.go:262-264,277-279 *)
| Close               (* both loops have ended: controlLoopExit calls flushInFly, connection.go:185-187; the old table stays reachable through the slots *)
| Flush.              (* one iteration of the loop at connection.go:193-197 *)

(** bookkeeping: a function with one value replaced *)
Definition updr {A} (f : rid -> A) (k : rid) (v : A) : rid -> A := fun i => if Nat.eqb i k then v else f i.
(** completion: the bookmark is unchained, its Request becomes nil (response.go:81-87) *)
Definition complete (c : conn) (r : rid) (o : outcome) : conn :=
  let h := match rs c r with RFly w i => set_slot (hold c) w i (mkSlot (fake (slots (rows (hold c) w) i)) None) | _ => hold c end in
  mkConn h (pre c) (reader c) (updr (rs c) r (RDone o)) (shut c) (open c) (flush c).
(** bookkeeping: the state with one component replaced; the assignments of the steps below *)
Definition with_flush (c : conn) (l : list (Z * Z)) : conn := mkConn (hold c) (pre c) (reader c) (rs c) (shut c) (open c) l.

(** One step: the observations and the new state (None: crash). An event that is not possible in the state
    does nothing. net/client/connection/connection.go:154-305 *)
Definition step (c : conn) (e : ev) : list obs * option conn :=
  match e with
  | Prefetch =>
      match pre c with
      | Some _ => ([], Some c)
      | None =>
          if open c then
            match getNext (hold c) with
            | None => ([], None)
            | Some (h, s) => ([], Some (mkConn h (Some s) (reader c) (rs c) (shut c) (open c) (flush c)))
            end
          else ([], Some c)
      end
  | Send r =>
      match pre c, rs c r with
      | Some (w, i), RNew =>
          if open c then
            let s := slots (rows (hold c) w) i in
            ([OWire (fake s) r],
             Some (mkConn (set_slot (hold c) w i (mkSlot (fake s) (Some r))) None (reader c) (updr (rs c) r (RFly w i)) (shut c) (open c) (flush c)))
          else ([], Some c)
      | _, _ => ([], Some c)
      end
  | Resp id code body =>
      match reader c with
      | Some _ => ([], Some c)
      | None =>
          if open c && (0 <=? id) && (id <? 2 ^ 32) then
            ([OGot id code body],
             match remove (hold c) id with
             | None => None
             | Some (h, ir) => Some (mkConn h (pre c) (Some (ir, code, body)) (rs c) (shut c) (open c) (flush c))
             end)
          else ([], Some c)
      end
  | Deliver =>
      match reader c with
      | None => ([], Some c)
      | Some (ir, code, body) =>
          let c := mkConn (hold c) (pre c) None (rs c) (shut c) (open c) (flush c) in
          match ir with
          | None => ([], Some c)
          | Some r =>
              match rs c r with
              | RFly _ _ => ([ODone r (Answer code body)], Some (complete c r (Answer code body)))
              | _ => ([], Some c)
              end
          end
      end
  | Local r code =>
      match rs c r with
      | RDone _ => ([], Some c)
      | _ => ([ODone r (Elsewhere code)], Some (complete c r (Elsewhere code)))
      end
  | Stop => ([], Some (mkConn (hold c) (pre c) (reader c) (rs c) (if open c then true else shut c) (open c) (flush c)))
  | Close =>
      match reader c with
      | Some _ => ([], Some c)
      | None =>
          if open c then
            match getAll (hold c) with
            | None => ([], None)
            | Some l => ([OClosed], Some (mkConn (hold c) (pre c) None (rs c) (shut c) false l))
            end
          else ([], Some c)
      end
  | Flush =>
      match flush c with
      | [] => ([], Some c)
      | (w, i) :: l =>
          let c := with_flush c l in
          match own (slots (rows (hold c) w) i) with
          | None => ([], Some c)
          | Some r =>
              match rs c r with
              | RDone _ => ([], Some c)
              | _ => let o := if shut c then Shutdown else IOError in ([ODone r o], Some (complete c r o))
              end
          end
      end
  end.
(** every schedule: the observations up to the end or the crash, and the final state; bookkeeping: a schedule, event by event *)
Fixpoint run (c : conn) (es : list ev) : list obs * option conn :=
  match es with
  | [] => ([], Some c)
  | e :: es =>
      match step c e with
      | (o, None) => (o, None)
      | (o, Some c) => let '(o', c') := run c es in (o ++ o', c')
      end
  end.
