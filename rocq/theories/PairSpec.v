(** What the two ends of a connection rely on, in terms of the requests the client sends, the requests the server's
    handlers see, how they complete them and how the client's requests complete. *)
From Coq Require Import ZArith List Bool.
Import ListNotations.
From Verif Require Import Base WireModel WireSpec PairModel.
From Verif Require HolderModel HolderSpec ServerModel ServerSpec.
Open Scope Z_scope.

(** what happened at the client, what happened at the server, and the requests that the server read *)
Definition client (t : list obs) : list HolderModel.obs := flat_map (fun o => match o with CO x => [x] | _ => [] end) t.
Definition server (t : list obs) : list ServerModel.obs := flat_map (fun o => match o with SO x => [x] | _ => [] end) t.
Definition reads (t : list obs) : list (nat * request) := flat_map (fun o => match o with Read n q => [(n, q)] | _ => [] end) t.
(** the frames sent by the client (wire id, request), and how its requests completed *)
Definition sends (t : list obs) : list (Z * HolderModel.rid) := HolderSpec.wires (client t).
Definition dones (t : list obs) : list (HolderModel.rid * HolderModel.outcome) := HolderSpec.dones (client t).
(** how the server's handlers completed the requests the server read: number, code and body *)
Definition comps (t : list obs) : list (nat * Z * list Z) := ServerSpec.comps (server t).
(** how many answers the client has read *)
Definition gots (t : list obs) : list (Z * Z * list Z) :=
  flat_map (fun o => match o with HolderModel.OGot i c b => [(i, c, b)] | _ => [] end) (client t).
(** the code a client sees: without return codes on the wire, success; otherwise the code of the handler, with those of
    the kind Internal translated (C44) *)
Definition code_seen (rc : rctype) (m : option ServerModel.rcmap) (c : Z) : Z :=
  match rc with RC0 => RC_OK | _ => ServerModel.wire_code m c end.

(** requests that fit the header and are no pings *)
Definition proper_requests (msg : HolderModel.rid -> Z) (body : HolderModel.rid -> list Z) : Prop :=
  forall r, u32_ok (msg r) /\ msg r <> PING /\ u32_ok (zlen (body r)).
(** RetCode is uint32: the map's codes and the handlers'; with its code a body fits the header *)
Definition proper_map (m : option ServerModel.rcmap) : Prop :=
  match m with Some l => Forall (fun e => u32_ok (snd e)) l | None => True end.
Definition proper_answers (es : list ev) : Prop :=
  forall r c b, In (Server (ServerModel.Complete r c b)) es -> u32_ok c /\ u32_ok (4 + zlen b).
(** the return code type is RC0byte; or it is RC4byte and no pings are sent *)
Definition in_sync (rc : rctype) (dial : bool) (es : list ev) : Prop :=
  rc = RC0 \/ (rc = RC4 /\ dial = false /\ ~ In CPing es).
Definition prefix {A} (a b : list A) : Prop := exists c, b = a ++ c.
(** the client's read loop goes on: it hands over what it has read, and n times reads a frame (out of N bytes that are
    there) and hands it over *)
Definition read_on (N n : nat) : list ev := flat_map (fun _ => [Client HolderModel.Deliver; CRead [N]]) (seq 0 n) ++ [Client HolderModel.Deliver].
