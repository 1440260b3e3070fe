(** What a user of a client endpoint relies on, in terms of what can be observed of a run. *)
From Coq Require Import ZArith List Bool Arith.
Import ListNotations.
From Verif Require ClientModel HolderModel HolderSpec.
From Verif Require Import FleetModel.

(** the completions, oldest first *)
Definition completions (t : list obs) : list (rid * HolderModel.outcome) := flat_map (fun x => match x with FDone _ r o => [(r, o)] | _ => [] end) t.
(** the requests written to the network, on whatever connection, oldest first *)
Definition written (t : list obs) : list rid := flat_map (fun x => match x with FWire _ _ r => [r] | _ => [] end) t.
(** ... and those written on connection i *)
Definition written_on (i : nat) (t : list obs) : list rid := flat_map (fun x => match x with FWire j _ r => if (j =? i)%nat then [r] else [] | _ => [] end) t.
(** what happens to the endpoint *)
Definition of_endpoint (t : list obs) : list ClientModel.obs := flat_map (fun x => match x with FEp o => [o] | _ => [] end) t.
(** what happens at connection i: its frames, its completions, and those by timeouts and users *)
Definition at_conn (i : nat) (t : list obs) : list HolderModel.obs :=
  flat_map (fun x => match x with
    | FWire j id r => if (j =? i)%nat then [HolderModel.OWire id r] else []
    | FGot j id code body => if (j =? i)%nat then [HolderModel.OGot id code body] else []
    | FDone (ByConn j) r o => if (j =? i)%nat then [HolderModel.ODone r o] else []
    | FDone ByUser r o => [HolderModel.ODone r o]
    | FClosed j => if (j =? i)%nat then [HolderModel.OClosed] else []
    | _ => [] end) t.
(** on every connection the peer answers only what it was asked, each frame at most once and in good time *)
Definition good_peers (t : list obs) : Prop := forall i, HolderSpec.polite (at_conn i t) /\ HolderSpec.timely (at_conn i t).
(** no peer sends a response with the id which its connection will use for the next request *)
Definition never_ahead (t : list obs) : Prop :=
  forall i p id code body q, at_conn i t = p ++ HolderModel.OGot id code body :: q -> id <> HolderSpec.nth_id (HolderSpec.nsent p).
(** nothing but a timeout or its user completes request r after state s, whatever happens *)
Definition abandoned (s : st) (r : rid) : Prop := forall es t os, run s es = (t, os) -> forall w x, In (FDone w r x) t -> w = ByUser.
(** one more frame on connection i would still be sent in good time *)
Definition may_write (i : nat) (t : list obs) : Prop := forall id r, HolderSpec.timely (at_conn i t ++ [HolderModel.OWire id r]).
(** the steps of connection i when its network is lost: the read loop ends at a failing read, the write loop at a failing write,
    and the endpoint takes the reports of its connections *)
Definition losing (i : nat) (e : ev) : Prop :=
  match e with
  | Ping j | Fetch j | Write j false | Deliver j | Flush j => j = i
  | Ep (ClientModel.W j) | Ep (ClientModel.RFail j) | Ep (ClientModel.R j) | Ep (ClientModel.K j) => j = i
  | Report _ => True
  | _ => False
  end.
