(** What users of a server connection rely on, in terms of the requests read, completed and answered. *)
From Coq Require Import ZArith List Bool.
Import ListNotations.
From Verif Require Import ServerModel.
Open Scope Z_scope.

Definition is_internal (c : Z) : Prop := c mod 8 = 3.

(** requests read, with their ids; given to the endpoint; completed, with the handler's code and body *)
Definition reqs (t : list obs) : list (rid * Z) := flat_map (fun o => match o with OReq r i => [(r, i)] | _ => [] end) t.
Definition sends (t : list obs) : list rid := flat_map (fun o => match o with OSend r => [r] | _ => [] end) t.
Definition comps (t : list obs) : list (rid * Z * list Z) := flat_map (fun o => match o with OComp r c b => [(r, c, b)] | _ => [] end) t.
(** answers accepted by the connection, answers to pings, answers dropped, answers written *)
Definition answers (t : list obs) : list res := flat_map (fun o => match o with OAnswer x => [x] | _ => [] end) t.
Definition pongs (t : list obs) : list res := flat_map (fun o => match o with OPong x => [x] | _ => [] end) t.
Definition drops (t : list obs) : list res := flat_map (fun o => match o with ODrop x => [x] | _ => [] end) t.
Definition writes (t : list obs) : list res := flat_map (fun o => match o with OWrite x => [x] | _ => [] end) t.
Definition pings (t : list obs) : list Z := flat_map (fun o => match o with OPing id => [id] | _ => [] end) t.
Definition for_request (x : res) : bool := match res_req x with Some _ => true | None => false end.
Definition answered (t : list obs) (r : rid) : Prop := exists x, In x (answers t) /\ res_req x = Some r.

(** The client does not reuse an id before the server has answered the request that carries it. *)
Definition distinct_ids (t : list obs) : Prop :=
  forall p r id q, t = p ++ OReq r id :: q -> forall r', In (r', id) (reqs p) -> answered p r'.
(** At no time more than 128 requests and pings have been read and not been answered on the wire. *)
Definition at_most_128 (t : list obs) : Prop :=
  forall p q, t = p ++ q -> (length (reqs p) + length (pings p) <= length (writes p) + 128)%nat.
(** the response that belongs to a ping *)
Definition pong_of (id : Z) : res := mkRes id 0 [] None.
(** the response that belongs to a completion: the request's id, the handler's body, the code the wire may see *)
Definition response_of (m : option rcmap) (idOf : rid -> Z) (c : rid * Z * list Z) : res :=
  let '(r, code, body) := c in mkRes (idOf r) (wire_code m code) body (Some r).

(** the steps of the connection's own goroutines, as opposed to the network's and the handlers' *)
Definition internal (e : ev) : Prop := match e with Reader | Writer | Control | Responder _ | Unblock => True | _ => False end.
(** nothing the goroutines can do by themselves changes the state *)
Definition stuck (s : st) : Prop := forall e, internal e -> step s e = ([], Some s).
(** a schedule of the goroutines in which every step does something *)
Fixpoint effective (s : st) (es : list ev) : Prop :=
  match es with
  | [] => True
  | e :: es => internal e /\ exists o s', step s e = (o, Some s') /\ s' <> s /\ effective s' es
  end.
