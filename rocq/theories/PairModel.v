(** One client connection (net/client/connection) and one server connection (net/server) of this library joined by
    two byte streams: the machines of HolderModel.v and ServerModel.v, with the frames they exchange written and
    read by the code of WireModel.v (net/header.go, net/buf_writer.go, net/slice_reader.go).

    What the client's writer has handed to its socket is a list of bytes; a read at the other end sees some prefix
    of it, cut in pieces in any way. A read loop that asks for its next frame reads the stream from the start with
    the reader of WireModel.v and takes the frame that follows those taken before: the reader's buffer between two
    reads is thus not kept, it is recomputed. When the frame has not arrived completely the read loop waits, which
    here is a step that does nothing; the stream ending inside a frame is the subject of C08 and not repeated.
    Socket writes fail as their scripts say; deadlines are among the reasons. The transport neither loses nor
    changes bytes (TCP). The simplifications of the two machines apply. *)
From Coq Require Import ZArith List Bool.
Import ListNotations.
From Verif Require Import Base WireModel WireSpec.
From Verif Require HolderModel ServerModel.
Open Scope Z_scope.

(** the pieces in which the first bytes of [b] arrive; what the transport returns to net/slice_reader.go:72-91 *)
Fixpoint pieces (cuts : list nat) (b : list Z) : list chunk :=
  match cuts with
  | [] => []
  | k :: cuts => mkChunk (firstn k b) None :: pieces cuts (skipn k b)
  end.

(** what the client reads: on a dialled connection ReadPing first (net/client/connection/connection.go:115), then
    ReadResponse in the read loop (:204-228) *)
Definition client_reads (dial : bool) (rc : rctype) (fuel : nat) (r : slr) : list response :=
  if dial then
    match hr_ping r with
    | ROk r' _ => mkRes PING PING_ID RC_OK [] :: fst (read_responses rc fuel r')
    | _ => []
    end
  else fst (read_responses rc fuel r).

(** Connection.Loop's phases, net/client/connection/connection.go:103-131 *)
Inductive phase := New | Greeted | Running.
(** a client connection (net/client/connection/connection.go:63-83) and a server connection (net/server/connection.go:30-45) *)
Record pair := mkPair {
  cli : HolderModel.conn;
  cwr : bufw;                    (* the client's HeaderWriter and its socket *)
  cok : bool;                    (* the client's write loop has met no error *)
  ph : phase;
  cread : nat;                   (* frames the client has read *)
  srv : ServerModel.st;
  swr : bufw;                    (* the server's HeaderWriter and its socket *)
  sread : nat;                   (* frames the server has read *)
  sreq : nat -> request }.       (* the requests the server has read, by number *)

(** bookkeeping: the state with one component replaced; the assignments of the steps below *)
Definition set_c (p : pair) c := mkPair c (cwr p) (cok p) (ph p) (cread p) (srv p) (swr p) (sread p) (sreq p).
Definition set_cw (p : pair) w ok := mkPair (cli p) w ok (ph p) (cread p) (srv p) (swr p) (sread p) (sreq p).
Definition set_ph (p : pair) f := mkPair (cli p) (cwr p) (cok p) f (cread p) (srv p) (swr p) (sread p) (sreq p).
Definition set_cread (p : pair) n := mkPair (cli p) (cwr p) (cok p) (ph p) n (srv p) (swr p) (sread p) (sreq p).
Definition set_s (p : pair) s := mkPair (cli p) (cwr p) (cok p) (ph p) (cread p) s (swr p) (sread p) (sreq p).
Definition set_sw (p : pair) w := mkPair (cli p) (cwr p) (cok p) (ph p) (cread p) (srv p) w (sread p) (sreq p).
Definition set_sread (p : pair) n := mkPair (cli p) (cwr p) (cok p) (ph p) (cread p) (srv p) (swr p) n (sreq p).
Definition set_sreq (p : pair) f := mkPair (cli p) (cwr p) (cok p) (ph p) (cread p) (srv p) (swr p) (sread p) f.

(** bookkeeping: what can be observed from outside *)
Inductive obs :=
| CO (o : HolderModel.obs)       (* at the client *)
| SO (o : ServerModel.obs)       (* at the server *)
| Read (n : nat) (q : request).  (* the server's n-th request, as its handler sees it *)
Inductive ev :=
| Dial                           (* writer.Ping and Flush, connection.go:113-114 *)
| Hello (cuts : list nat)        (* reader.ReadPing, :115 *)
| Client (e : HolderModel.ev)
| CPing                          (* w.Ping, :284 *)
| CFlush                         (* w.Flush, :270, :246 *)
| CRead (cuts : list nat)        (* ReadResponse, :211 *)
| Server (e : ServerModel.ev)
| SRead (cuts : list nat).       (* ReadRequest, net/server/connection.go:171 *)
Definition result := (list obs * option pair)%type.
(** bookkeeping: a step without observation *)
Definition ok (p : pair) : result := ([], Some p).

Section Pair.
Variable rc : rctype.
(** the requests the client sends: their type and body *)
Variable msg : HolderModel.rid -> Z.
Variable body : HolderModel.rid -> list Z.
Variable dial : bool.

(** requestHeader, net/client/connection/connection.go:292-296 *)
Definition sentq (w : Z * HolderModel.rid) : request := mkReq (msg (snd w)) (fst w) (body (snd w)).
(** a call of the client's writer; an error ends the write loop, connection.go:250-252, 300-302 *)
Definition c_write (p : pair) (o : wop) : option pair :=
  match hw_op rc (cwr p) o with
  | WOk w => Some (set_cw p w true)
  | WErr w => Some (set_cw p w false)
  | WPanic => None
  end.
(** a step of the client's machine; a frame given to the writer is written; net/client/connection/connection.go:286-299 *)
Definition c_step (p : pair) (e : HolderModel.ev) : result :=
  match HolderModel.step (cli p) e with
  | (o, None) => (map CO o, None)
  | (o, Some c) =>
      (map CO o,
       fold_left (fun p x => match p, x with
                             | Some p, HolderModel.OWire id r => c_write p (OpReq (sentq (id, r)))
                             | p, _ => p
                             end) o (Some (set_c p c)))
  end.
(** the response as the server writes it: Id and Msg are the request's, request.go:130-137; a ping's,
    net/server/connection.go:176-179 *)
Definition frame_of (f : nat -> request) (x : ServerModel.res) : response :=
  mkRes (match ServerModel.res_req x with Some r => q_msg (f r) | None => PING end)
    (ServerModel.res_id x) (ServerModel.res_code x) (ServerModel.res_body x).
(** a step of the server connection, net/server/connection.go:125-290 *)
Definition s_step (p : pair) (e : ServerModel.ev) : result :=
  match ServerModel.step (srv p) e with
  | (o, None) => (map SO o, None)
  | (o, Some s) => (map SO o, Some (set_s p s))
  end.
(** a call of the server's writer, and how its write loop goes on: net/server/connection.go:246-250, 278, 286 *)
Definition s_write (p : pair) (o : wop) : result :=
  match hw_op rc (swr p) o with
  | WOk w => s_step (set_sw p w) ServerModel.Writer
  | WErr w => s_step (set_sw p w) ServerModel.WriteFail
  | WPanic => ([], None)
  end.

(** One step of the pair: observations and the new state (None: a panic). What is not possible does nothing. net/client/connection/connection.go:103-305, net/server/connection.go:125-290 *)
Definition step (p : pair) (e : ev) : result :=
  match e with
  | Dial =>
      match ph p with
      | New =>
          match c_write p OpPing with
          | None => ([], None)
          | Some p => if cok p then match c_write p OpFlush with
                                    | None => ([], None)
                                    | Some p => ok (set_ph p Greeted)
                                    end
                      else ok (set_ph p Greeted)
          end
      | _ => ok p
      end
  | Hello cuts =>
      match ph p with
      | Greeted =>
          if cok p then
            match hr_ping (r_init (pieces cuts (w_out (swr p)))) with
            | ROk _ _ => ok (set_cread (set_ph p Running) 1)
            | _ => ok p
            end
          else ok p
      | _ => ok p
      end
  | Client e =>
      match ph p, e with
      | Running, HolderModel.Resp _ _ _ => ok p
      | Running, HolderModel.Prefetch | Running, HolderModel.Send _ => if cok p then c_step p e else ok p
      | Running, e => c_step p e
      | _, _ => ok p
      end
  | CPing => match ph p with
             | Running => if cok p && HolderModel.open (cli p) then match c_write p OpPing with None => ([], None) | Some p => ok p end else ok p
             | _ => ok p
             end
  | CFlush => match ph p with
              | Running => if cok p then match c_write p OpFlush with None => ([], None) | Some p => ok p end else ok p
              | _ => ok p
              end
  | CRead cuts =>
      match ph p, HolderModel.reader (cli p), HolderModel.open (cli p) with
      | Running, None, true =>
          match nth_error (client_reads dial rc (S (cread p)) (r_init (pieces cuts (w_out (swr p))))) (cread p) with
          | None => ok p
          | Some x =>
              let p := set_cread p (S (cread p)) in
              if (p_id x =? PING_ID) && (p_msg x =? PING) then ok p
              else c_step p (HolderModel.Resp (p_id x) (p_code x) (p_body x))
          end
      | _, _, _ => ok p
      end
  | Server e =>
      match e with
      | ServerModel.NetReq _ | ServerModel.NetPing _ | ServerModel.WriteFail => ok p
      | ServerModel.Writer =>
          match ServerModel.wp (srv p) with
          | ServerModel.WWrite x => s_write p (OpRes (frame_of (sreq p) x))
          | ServerModel.WFlush | ServerModel.WEnd => s_write p OpFlush
          | _ => s_step p e
          end
      | _ => s_step p e
      end
  | SRead cuts =>
      match ServerModel.rp (srv p) with
      | ServerModel.RIdle =>
          match nth_error (fst (read_requests (S (sread p)) (r_init (pieces cuts (w_out (cwr p)))))) (sread p) with
          | None => ok p
          | Some q =>
              let p := set_sread p (S (sread p)) in
              if q_msg q =? PING then s_step p (ServerModel.NetPing (q_id q))
              else
                let n := ServerModel.nreq (srv p) in
                let '(o, r) := s_step (set_sreq p (fun i => if Nat.eqb i n then q else sreq p i)) (ServerModel.NetReq (q_id q)) in
                (Read n q :: o, r)
          end
      | _ => ok p
      end
  end.
(** bookkeeping: a schedule, event by event *)
Fixpoint run (p : pair) (es : list ev) : result :=
  match es with
  | [] => ok p
  | e :: es =>
      match step p e with
      | (o, None) => (o, None)
      | (o, Some p) => let '(o', r) := run p es in (o ++ o', r)
      end
  end.
End Pair.
(** NewConnection and the accepted connection, net/client/connection/connection.go:87-98, 103-112, net/server/connection.go:46-68;
    the scripts say which socket writes fail. With [dial = false] the connection starts after the greeting. *)
Definition p_init (dial : bool) (m : option ServerModel.rcmap) (csc ssc : list (option nat)) : pair :=
  mkPair HolderModel.c_init (w_init csc) true (if dial then New else Running) 0 (ServerModel.s_init m) (w_init ssc) 0 (fun _ => mkReq 0 0 []).
