(** Model of a server with all its connections: ListenModel.v (net/server/server.go) and, for each connection, ServerModel.v
    (net/server/connection.go) in one machine. The two share the connection's control loop: where ListenModel.v lets a
    connection read, meet its end or report at any time, here it does so exactly when its ServerModel.v does. This also
    takes back a simplification of ServerModel.v: the control loop of a connection waits until the server has taken its
    reports.

    Simplifications: those of the two models, except the ones just named. A panic in a connection ends the program. *)
From Coq Require Import ZArith List Bool Arith.
Import ListNotations.
From Verif Require ListenModel ServerModel.

(** Server (net/server/server.go:13-26) and its connections (net/server/connection.go:30-45) *)
Record st := mkG { lst : ListenModel.st; con : nat -> ServerModel.st }.
(** NewServer and Run, net/server/server.go:28-63; a connection is made when it is accepted, and each starts alike, net/server/connection.go:47-62 *)
Definition g_init (m : option ServerModel.rcmap) : st := mkG ListenModel.s_init (fun _ => ServerModel.s_init m).
(** bookkeeping: what can be observed of the server, and of a connection *)
Inductive obs := OL (o : ListenModel.obs) | OC (i : nat) (o : ServerModel.obs).
(** bookkeeping: the steps of the server and of the world around it; the steps of a connection and of the world around it *)
Inductive ev := EL (e : ListenModel.ev) | EC (i : nat) (e : ServerModel.ev).
(** bookkeeping: observations and the state after a step; None: a panic *)
Definition result := (list obs * option st)%type.
(** bookkeeping: a step without observation *)
Definition ok (s : st) : result := ([], Some s).
(** bookkeeping: the steps of ListenModel.v that are the server's; the others are taken with steps of the connections *)
Definition of_server (e : ListenModel.ev) : bool :=
  match e with ListenModel.CRead _ | ListenModel.CEof _ | ListenModel.CWritten _ | ListenModel.CGo _ => false | _ => true end.
(** bookkeeping: connection i is told to stop in this step *)
Definition tells (i : nat) (o : list ListenModel.obs) : bool :=
  existsb (fun x => match x with ListenModel.OTell j => Nat.eqb j i | _ => false end) o.
(** Connection.Stop, net/server/connection.go:70-72, called by net/server/server.go:87-89 *)
Definition told (o : list ListenModel.obs) (f : nat -> ServerModel.st) : nat -> ServerModel.st :=
  fun i => if tells i o then ServerModel.w_eof (f i) true else f i.
(** a step of the server: net/server/server.go:65-126 *)
Definition step_server (s : st) (e : ListenModel.ev) : result :=
  if of_server e then
    let '(o, l) := ListenModel.step (lst s) e in (map OL o, Some (mkG l (told o (con s))))
  else ok s.
(** bookkeeping: has this step read a request; has it ended the control loop; has it ended the reader *)
Definition is_req (o : ServerModel.obs) : bool := match o with ServerModel.OReq _ _ => true | _ => false end.
Definition is_closed (o : ServerModel.obs) : bool := match o with ServerModel.OClosed => true | _ => false end.
Definition reader_done (c : ServerModel.st) : bool := match ServerModel.rp c with ServerModel.RDone => true | _ => false end.
(** what a step of a connection is for the server: a request is read, the reader has ended (net/server/connection.go:165),
    the control loop goes on to its second report (:149-151, 119-123) *)
Definition seen (i : nat) (c : ServerModel.st) (o : list ServerModel.obs) (c' : ServerModel.st) : list ListenModel.ev :=
  (if existsb is_req o then [ListenModel.CRead i] else []) ++
  (if negb (reader_done c) && reader_done c' then [ListenModel.CEof i] else []) ++
  (if existsb is_closed o then [ListenModel.CGo i] else []).
(** a step of a connection, net/server/connection.go:64-290 *)
Definition step_conn (s : st) (i : nat) (e : ServerModel.ev) : result :=
  let c := con s i in
  match ServerModel.step c e with
  | (o, None) => (map (OC i) o, None)
  | (o, Some c') =>
      let '(o', l) := ListenModel.run (lst s) (seen i c o c') in
      (map (OC i) o ++ map OL o', Some (mkG l (ListenModel.upd (con s) i c')))
  end.
(** bookkeeping: this is a step of the control loop after the last req.Cancel() of cancelInFly *)
Definition at_report (c : ServerModel.st) (e : ServerModel.ev) : bool :=
  match e, ServerModel.kp c with ServerModel.Control, ServerModel.KCancel [] => true | _, _ => false end.
(** one step. At the end of cancelInFly the control loop of a connection sends its first report and waits until the server has taken it, net/server/connection.go:117 *)
Definition step (s : st) (e : ev) : result :=
  match e with
  | EL e => step_server s e
  | EC i e =>
      match ListenModel.cp (lst s) i with
      | ListenModel.CNone => ok s
      | p =>
          if at_report (con s i) e then
            match p with
            | ListenModel.CServe => let '(o, l) := ListenModel.step (lst s) (ListenModel.CWritten i) in (map OL o, Some (mkG l (con s)))
            | ListenModel.CFirst => ok s
            | _ => step_conn s i e
            end
          else step_conn s i e
      end
  end.
(** bookkeeping: a schedule, event by event *)
Fixpoint run (s : st) (es : list ev) : result :=
  match es with
  | [] => ([], Some s)
  | e :: es =>
      match step s e with
      | (o, None) => (o, None)
      | (o, Some s) => let '(o', s') := run s es in (o ++ o', s')
      end
  end.
